(** * kst and special_k: panic domain, lengths, values and causality *)

From Verif Require Export Tac Momentum MomShape.
Local Unset Implicit Arguments.

Lemma nth_error_upd {A} (l : list A) i j x :
  nth_error (upd l i x) j =
  if Nat.eqb j i then (if j <? length l then Some x else None) else nth_error l j.
Proof.
  revert i j; induction l as [|a l IH]; intros [|i] [|j]; cbn; try reflexivity.
  - now destruct (j =? i).
  - rewrite IH. change (S j <? S (length l)) with (j <? length l). reflexivity.
Qed.

Section Prings.
  Context {F : Type} {O : FOps F}.
  Local Open Scope F_scope.
  Implicit Types (data : list F).

  (** The rate of change in percent of bar [i] against bar [i - r]. *)
  Definition roc_at data (r i : nat) : F := #100 * (at_ data i / at_ data (i - r) - #1).
  (** Its plain average over the [p] bars that end at bar [i]. *)
  Definition mean_roc data (r p i : nat) : F :=
    fsum (map (roc_at data r) (seq (i + 1 - p) p)) / fofnat p.
  (** The weighted sum over the terms (roc window, average window, weight) for
      which bar [i] has enough history. *)
  Definition prings_val data (ts : list (nat * nat * F)) (i : nat) : F :=
    fold_left (fun acc '(r, p, m) =>
                 if (r + Nat.max 1 p <=? i + 1)%nat then acc + mean_roc data r p i * m else acc)
              ts #0.

  (** A term on which [prings] panics when given [n] bars. *)
  Definition term_bad (n r0 p0 : nat) (t : nat * nat * F) : Prop :=
    let '(r, p, _) := t in
    (r < n /\ (p = 0 \/ (r + p <= n /\ (r < r0 \/ p < p0))))%nat.

  Lemma add_into_spec m : forall (vals : list F) acc off,
    (off + length vals <= length acc)%nat ->
    exists r, add_into acc off m vals = Ok r /\ length r = length acc /\
      forall j, nth_error r j =
        if ((off <=? j) && (j <? off + length vals))%nat
        then match nth_error acc j, nth_error vals (j - off) with
             | Some a, Some v => Some (a + v * m) | _, _ => None end
        else nth_error acc j.
  Proof.
    induction vals as [|v vals IH]; intros acc off H; cbn [add_into length] in *.
    - exists acc. repeat split. intros j.
      destruct (Nat.leb_spec off j), (Nat.ltb_spec j (off + 0)); cbn [andb]; try reflexivity. lia.
    - destruct (nth_error_is_Some (l := acc) (i := off)) as [a Ea]; [lia|].
      unfold idx. rewrite Ea. cbn [bind].
      destruct (IH (upd acc off (a + v * m)) (off + 1)%nat) as (r & E & L & V).
      { rewrite length_upd. lia. }
      exists r. split; [exact E|]. rewrite length_upd in L. split; [exact L|].
      intros j. rewrite V, nth_error_upd.
      destruct (Nat.eqb_spec j off) as [->|Hj].
      + destruct (Nat.leb_spec (off + 1) off); [lia|]. cbn [andb].
        destruct (Nat.leb_spec off off); [|lia].
        destruct (Nat.ltb_spec off (off + S (length vals))); [|lia]. cbn [andb].
        destruct (Nat.ltb_spec off (length acc)); [|lia].
        rewrite Ea, Nat.sub_diag. reflexivity.
      + destruct (Nat.leb_spec (off + 1) j), (Nat.leb_spec off j); try lia; cbn [andb]; [|reflexivity].
        replace (off + 1 + length vals)%nat with (off + S (length vals))%nat by lia.
        destruct (Nat.ltb_spec j (off + S (length vals))); [|reflexivity].
        replace (j - off)%nat with (S (j - (off + 1))) by lia. reflexivity.
  Qed.

  Lemma nth_error_at data i : (i < length data)%nat -> nth_error data i = Some (at_ data i).
  Proof. intros H. unfold at_. now apply nth_error_nth'. Qed.
  Lemma at_nth_error data i x : nth_error data i = Some x -> at_ data i = x.
  Proof. intros H. unfold at_. now apply nth_error_nth. Qed.
  Lemma at_win w data i j : (j < w)%nat -> at_ (win w data i) j = at_ data (i + 1 - w + j).
  Proof.
    intros H. unfold at_. pose proof (nth_error_win (l := data) (i := i) H) as E.
    destruct (nth_error data (i + 1 - w + j)) as [x|] eqn:D.
    - now rewrite (nth_error_nth _ _ _ E), (nth_error_nth _ _ _ D).
    - rewrite !nth_overflow; try easy; now apply nth_error_None.
  Qed.
  Lemma last_win w data i :
    (0 < w)%nat -> (w <= i + 1)%nat -> (i < length data)%nat -> last_ (win w data i) = at_ data i.
  Proof.
    intros H0 H1 H2. unfold last_. rewrite length_win by lia. fold (at_ (win w data i) (w - 1)).
    rewrite at_win by lia. f_equal. lia.
  Qed.
  Lemma roc_win_at data r i :
    (r <= i)%nat -> (i < length data)%nat -> roc_win (win (r + 1) data i) = roc_at data r i.
  Proof.
    intros H1 H2. unfold roc_win, roc_at. rewrite last_win, at_win by lia. do 4 f_equal. lia.
  Qed.
  Lemma nth_error_rocs data r i :
    (i + r < length data)%nat ->
    nth_error (map roc_win (windows (r + 1) data)) i = Some (roc_at data r (i + r)).
  Proof.
    intros H. rewrite nth_error_map'.
    replace i with ((i + r) - (r + 1 - 1))%nat at 1 by lia.
    rewrite nth_error_windows_win by lia. f_equal. apply roc_win_at; lia.
  Qed.
  Lemma win_rocs data r p i :
    (0 < p)%nat -> (r + p <= i + 1)%nat -> (i < length data)%nat ->
    win p (map roc_win (windows (r + 1) data)) (i - r) = map (roc_at data r) (seq (i + 1 - p) p).
  Proof.
    intros H0 H1 H2. apply nth_error_ext. intros j.
    destruct (Nat.ltb_spec j p) as [Hj|Hj].
    - rewrite nth_error_win by easy. rewrite nth_error_rocs by lia.
      rewrite nth_error_map', nth_error_seq by easy. do 2 f_equal. lia.
    - transitivity (@None F); [|symmetry]; apply nth_error_None.
      + unfold win. rewrite firstn_length. lia.
      + rewrite map_length, seq_length. easy.
  Qed.

  Lemma prings_term_spec data r0 p0 acc t :
    (0 < p0)%nat -> (length data = length acc + r0 + (p0 - 1))%nat ->
    (term_bad (length data) r0 p0 t /\ prings_term data r0 p0 acc t = Panic) \/
    (~ term_bad (length data) r0 p0 t /\
     exists acc', prings_term data r0 p0 acc t = Ok acc' /\ length acc' = length acc /\
       forall j, (j < length acc)%nat ->
         at_ acc' j = let '(r, p, m) := t in
           if (r + Nat.max 1 p <=? j + r0 + (p0 - 1) + 1)%nat
           then at_ acc j + mean_roc data r p (j + r0 + (p0 - 1)) * m else at_ acc j).
  Proof.
    intros Hp0 Hn. destruct t as [[r p] m]. unfold prings_term, term_bad.
    set (rocs := map roc_win (windows (r + 1) data)).
    assert (Lr : length rocs = (length data - r)%nat).
    { unfold rocs. rewrite map_length, length_windows. lia. }
    destruct rocs as [|x0 rocs'] eqn:Er.
    { right. cbn [length] in Lr. split; [lia|]. exists acc. repeat split. intros j Hj.
      destruct (Nat.leb_spec (r + Nat.max 1 p) (j + r0 + (p0 - 1) + 1)); [|reflexivity].
      lia. }
    rewrite <- Er in *. assert (Hr : (r < length data)%nat) by (rewrite Er in Lr; cbn in Lr; lia).
    clear x0 rocs' Er. unfold sma, usub, rwindows.
    destruct (Nat.leb_spec 1 p); cbn [bind]; [|left; split; [lia|easy]].
    destruct (Nat.eqb_spec p 0); [lia|]. cbn [bind].
    rewrite skipn_app, skipn_all2 by (rewrite length_pad; lia).
    rewrite length_pad, Nat.sub_diag. cbn [app skipn].
    set (vals := map (sma_win p) (windows p rocs)).
    assert (Lv : length vals = (length data - r + 1 - p)%nat).
    { unfold vals. rewrite map_length, length_windows. lia. }
    destruct vals as [|v0 vals'] eqn:Ev.
    { right. cbn [length] in Lv. split; [lia|]. exists acc. repeat split. intros j Hj.
      destruct (Nat.leb_spec (r + Nat.max 1 p) (j + r0 + (p0 - 1) + 1)); [lia|]. reflexivity. }
    rewrite <- Ev in *. assert (Hrp : (r + p <= length data)%nat) by (rewrite Ev in Lv; cbn in Lv; lia).
    destruct (Nat.leb_spec r0 r); cbn [bind]; [|left; split; [lia|easy]].
    destruct (Nat.leb_spec p0 p); cbn [bind]; [|left; split; [lia|easy]].
    destruct (add_into_spec m vals acc (r - r0 + (p - p0))) as (acc' & E & L & V); [lia|].
    right. split; [lia|]. exists acc'. split; [exact E|]. split; [exact L|].
    intros j Hj. specialize (V j).
    assert (Ea : nth_error acc j = Some (at_ acc j)) by now apply nth_error_at.
    rewrite (nth_error_at acc' j) in V by lia.
    destruct (Nat.ltb_spec j (r - r0 + (p - p0) + length vals)); [|lia].
    rewrite Bool.andb_true_r in V.
    destruct (Nat.leb_spec (r - r0 + (p - p0)) j),
      (Nat.leb_spec (r + Nat.max 1 p) (j + r0 + (p0 - 1) + 1)); try lia.
    - rewrite Ea in V. unfold vals in V at 1. rewrite nth_error_map' in V.
      set (i := (j + r0 + (p0 - 1))%nat) in *.
      replace (j - (r - r0 + (p - p0)))%nat with ((i - r) - (p - 1))%nat in V by lia.
      rewrite nth_error_windows_win in V by lia.
      unfold rocs in V at 1. rewrite win_rocs in V by lia. injection V as V. rewrite V.
      unfold sma_win, mean_roc. reflexivity.
    - rewrite Ea in V. now injection V.
  Qed.

  Lemma prings_loop_spec data r0 p0 ts : forall acc,
    (0 < p0)%nat -> (length data = length acc + r0 + (p0 - 1))%nat ->
    ((exists t, In t ts /\ term_bad (length data) r0 p0 t) /\
     prings_loop data r0 p0 acc ts = Panic) \/
    (~ (exists t, In t ts /\ term_bad (length data) r0 p0 t) /\
     exists acc', prings_loop data r0 p0 acc ts = Ok acc' /\ length acc' = length acc /\
       forall j, (j < length acc)%nat ->
         at_ acc' j =
           fold_left (fun a '(r, p, m) =>
             if (r + Nat.max 1 p <=? j + r0 + (p0 - 1) + 1)%nat
             then a + mean_roc data r p (j + r0 + (p0 - 1)) * m else a) ts (at_ acc j)).
  Proof.
    induction ts as [|t ts IH]; intros acc Hp0 Hn; cbn [prings_loop fold_left].
    - right. split; [now intros (? & [] & _)|]. exists acc. repeat split.
    - destruct (prings_term_spec data r0 p0 acc t Hp0 Hn) as [[B ->]|[B (acc1 & -> & L1 & V1)]];
        cbn [bind]; [left; split; [exists t; split; [now left|easy]|easy]|].
      destruct (IH acc1 Hp0 ltac:(lia)) as [[(t' & Ht & B') ->]|[B' (acc2 & -> & L2 & V2)]].
      + left. split; [|easy]. exists t'. split; [now right|easy].
      + right. split.
        * intros (t' & [<-|Ht] & Bt); [easy|]. apply B'. eauto.
        * exists acc2. split; [easy|]. split; [lia|]. intros j Hj.
          rewrite V2 by lia. rewrite V1 by lia. destruct t as [[r p] m]. reflexivity.
  Qed.

  (** [prings] with at least one term. *)
  Lemma prings_spec data r0 p0 rocs periods mults :
    let rs := r0 :: rocs in let ps := p0 :: periods in
    let bad := (p0 = 0 \/ length data < r0 + p0 - 1 \/
                exists t, In t (zip3 rs ps mults) /\ term_bad (length data) r0 p0 t)%nat in
    (bad /\ prings data rs ps mults = Panic) \/
    (~ bad /\ exists o, prings data rs ps mults = Ok o /\
       aligned o (length data) (r0 + p0 - 1) fnan (prings_val data (zip3 rs ps mults))).
  Proof.
    intros rs ps bad. unfold bad.
    assert (Ep : prings data rs ps mults =
      let* a := usub (length data) r0 in
      let* b := usub p0 1 in
      let* n := usub a b in
      let* r := prings_loop data r0 p0 (repeat #0 n) (zip3 rs ps mults) in
      Ok (pad (r0 + b) fnan ++ r)) by reflexivity.
    rewrite Ep. clear Ep. unfold usub.
    destruct (Nat.leb_spec r0 (length data)); cbn [bind]; [|left; split; [lia|easy]].
    destruct (Nat.leb_spec 1 p0); cbn [bind]; [|left; split; [lia|easy]].
    destruct (Nat.leb_spec (p0 - 1) (length data - r0)); cbn [bind]; [|left; split; [lia|easy]].
    set (n := (length data - r0 - (p0 - 1))%nat).
    destruct (prings_loop_spec data r0 p0 (zip3 rs ps mults) (repeat #0 n)) as
      [[B ->]|[B (acc & -> & L & V)]]; rewrite ?repeat_length in *; try lia; cbn [bind].
    - left. split; [tauto|easy].
    - right. split; [intros [?|[?|?]]; [lia|lia|tauto]|]. eexists; split; [reflexivity|].
      repeat split.
      + rewrite app_length, length_pad. lia.
      + intros i Hi. rewrite nth_error_app1 by (rewrite length_pad; lia).
        apply nth_error_pad. lia.
      + intros i Hi. rewrite nth_error_app2 by (rewrite length_pad; lia). rewrite length_pad.
        rewrite nth_error_at by lia. f_equal. rewrite V by lia. unfold prings_val.
        replace (i - (r0 + (p0 - 1)) + r0 + (p0 - 1))%nat with i by lia.
        f_equal. unfold at_. rewrite nth_error_nth with (x := #0); [reflexivity|].
        apply nth_error_repeat. lia.
  Qed.

  Definition kst_terms (rocs wins : option (nat * nat * nat * nat)) : list (nat * nat * F) :=
    let '(r1, r2, r3, r4) := unwrap_or rocs (10, 15, 20, 30)%nat in
    let '(p1, p2, p3, p4) := unwrap_or wins (10, 10, 10, 15)%nat in
    [(r1, p1, #1); (r2, p2, #2); (r3, p3, #3); (r4, p4, #4)].
  (** First bar on which [kst] has a value. *)
  Definition kst_first (rocs wins : option (nat * nat * nat * nat)) : nat :=
    match kst_terms rocs wins with (r, p, _) :: _ => (r + p - 1)%nat | [] => 0%nat end.
  (** When [kst] panics on [n] bars. *)
  Definition kst_bad (n : nat) (rocs wins : option (nat * nat * nat * nat)) : Prop :=
    match kst_terms rocs wins with
    | (r, p, _) :: _ =>
        (p = 0 \/ n < r + p - 1)%nat \/ exists t, In t (kst_terms rocs wins) /\ term_bad n r p t
    | [] => False
    end.

  Lemma kst_spec data rocs wins :
    (kst_bad (length data) rocs wins /\ kst data rocs wins = Panic) \/
    (~ kst_bad (length data) rocs wins /\ exists o, kst data rocs wins = Ok o /\
       aligned o (length data) (kst_first rocs wins) fnan (prings_val data (kst_terms rocs wins))).
  Proof.
    unfold kst, kst_bad, kst_first, kst_terms.
    destruct (unwrap_or rocs (10, 15, 20, 30)%nat) as [[[r1 r2] r3] r4].
    destruct (unwrap_or wins (10, 10, 10, 15)%nat) as [[[p1 p2] p3] p4].
    destruct (prings_spec data r1 p1 [r2; r3; r4] [p2; p3; p4] [#1; #2; #3; #4])
      as [[B E]|[B (o & E & A)]].
    - left. split; [|exact E]. tauto.
    - right. split; [tauto|]. exists o. split; [exact E|exact A].
  Qed.
  Lemma kst_outcome data rocs wins :
    outcome (kst data rocs wins) (kst_bad (length data) rocs wins) (length data).
  Proof.
    destruct (kst_spec data rocs wins) as [[B E]|[B (o & E & A)]]; [now left|].
    right. split; [easy|]. exists o. split; [easy|]. destruct A as (L & _). rewrite L.
    unfold kst_bad, kst_first, kst_terms in *.
    destruct (unwrap_or rocs (10, 15, 20, 30)%nat) as [[[r1 r2] r3] r4].
    destruct (unwrap_or wins (10, 10, 10, 15)%nat) as [[[p1 p2] p3] p4].
    apply Nat.max_r. cbn in *. assert (~ (p1 = 0 \/ length data < r1 + p1 - 1)%nat) by tauto. lia.
  Qed.
  (** The default windows only need 19 bars. *)
  Lemma kst_default_outcome data :
    outcome (kst data None None) (length data < 19)%nat (length data).
  Proof.
    eapply outcome_iff; [| |apply kst_outcome]; [|easy].
    unfold kst_bad, kst_terms. cbn [unwrap_or]. split.
    - intros [H|(t & Ht & B)]; [lia|]. exfalso. cbn [In] in Ht.
      intuition subst; unfold term_bad in *; lia.
    - intros. left. lia.
  Qed.

  Definition special_k_terms : list (nat * nat * F) :=
    [(10, 10, #1); (15, 10, #2); (20, 10, #3); (30, 15, #4);
     (50, 50, #1); (65, 65, #2); (75, 75, #3); (100, 100, #4);
     (195, 130, #1); (265, 130, #2); (390, 130, #3); (530, 195, #4)]%nat.
  Lemma special_k_spec data :
    ((length data < 19)%nat /\ special_k data = Panic) \/
    ((19 <= length data)%nat /\ exists o, special_k data = Ok o /\
       aligned o (length data) 19 fnan (prings_val data special_k_terms)).
  Proof.
    unfold special_k.
    destruct (prings_spec data 10 10
      [15; 20; 30; 50; 65; 75; 100; 195; 265; 390; 530]%nat
      [10; 10; 15; 50; 65; 75; 100; 130; 130; 130; 195]%nat
      [#1; #2; #3; #4; #1; #2; #3; #4; #1; #2; #3; #4]) as [[B E]|[B (o & E & A)]].
    - left. split; [|exact E]. destruct B as [?|[?|(t & Ht & B)]]; [lia|lia|]. exfalso.
      cbn -[Nat.lt] in Ht. unfold term_bad in B.
      repeat (destruct Ht as [<-|Ht]; [lia|]). destruct Ht.
    - right. split; [|exists o; split; [exact E|exact A]].
      destruct (Nat.le_gt_cases 19 (length data)); [easy|]. exfalso. apply B. lia.
  Qed.
  Lemma special_k_outcome data : outcome (special_k data) (length data < 19)%nat (length data).
  Proof.
    destruct (special_k_spec data) as [[B E]|[B (o & E & A)]]; [now left|].
    right. split; [lia|]. exists o. split; [easy|]. destruct A as (L & _). lia.
  Qed.

  (** Causality from the pointwise values. *)
  Lemma mean_roc_prefix d1 d2 r p i :
    prefix d1 d2 -> (i < length d1)%nat -> (0 < p)%nat -> (r + p <= i + 1)%nat ->
    mean_roc d2 r p i = mean_roc d1 r p i.
  Proof.
    intros P Hi Hp H. unfold mean_roc. do 2 f_equal. apply map_ext_in. intros j Hj.
    apply in_seq in Hj. unfold roc_at. rewrite !(at_prefix d1 d2) by (easy || lia). reflexivity.
  Qed.
  Lemma prings_val_prefix d1 d2 ts i :
    prefix d1 d2 -> (i < length d1)%nat -> (forall r p m, In (r, p, m) ts -> (0 < p)%nat) ->
    prings_val d2 ts i = prings_val d1 ts i.
  Proof.
    intros P Hi. unfold prings_val. generalize (#0).
    induction ts as [|[[r p] m] ts IH]; intros a Hp; cbn [fold_left]; [easy|].
    rewrite IH by (intros; eapply Hp; right; eassumption). f_equal.
    destruct (Nat.leb_spec (r + Nat.max 1 p) (i + 1)); [|easy]. rewrite (mean_roc_prefix d1 d2); auto; [|lia].
    eapply Hp. now left.
  Qed.
  Lemma aligned_prefix {B} (o1 o2 : list B) n1 n2 k na f g :
    aligned o1 n1 k na f -> aligned o2 n2 k na g -> (n1 <= n2)%nat ->
    (forall i, (k <= i < n1)%nat -> f i = g i) -> prefix o1 o2.
  Proof.
    intros (L1 & W1 & V1) (L2 & W2 & V2) Hn E.
    exists (skipn (length o1) o2).
    rewrite <- (firstn_skipn (length o1) o2) at 1. f_equal.
    apply nth_error_ext. intros i.
    destruct (Nat.lt_ge_cases i (length o1)) as [H|H].
    - rewrite nth_error_firstn by easy.
      destruct (Nat.lt_ge_cases i k); [now rewrite W1, W2|].
      rewrite V1, V2 by lia. now rewrite E by lia.
    - transitivity (@None B); [|symmetry]; apply nth_error_None; [|lia].
      rewrite firstn_length. lia.
  Qed.
  Lemma special_k_causal d1 d2 : prefix d1 d2 -> keeps (special_k d1) (special_k d2).
  Proof.
    intros P o1 E1. pose proof (prefix_length P) as L.
    destruct (special_k_spec d1) as [[B E]|[B (o & E & A)]]; [congruence|].
    destruct (special_k_spec d2) as [[B2 E2]|[B2 (o2 & E2 & A2)]]; [lia|].
    exists o2. split; [easy|]. assert (o = o1) as -> by congruence.
    eapply aligned_prefix; [exact A|exact A2|easy|].
    intros i Hi. symmetry. apply prings_val_prefix; [easy|lia|].
    intros r p m Hin. unfold special_k_terms in Hin. cbn [In] in Hin. repeat (destruct Hin as [Hin|Hin]; [injection Hin as <- <- <-; lia|]). destruct Hin.
  Qed.
  Lemma kst_default_causal d1 d2 : prefix d1 d2 -> keeps (kst d1 None None) (kst d2 None None).
  Proof.
    intros P o1 E1. pose proof (prefix_length P) as L.
    pose proof (proj1 (outcome_panic (kst_default_outcome d2))) as NP.
    destruct (kst_spec d1 None None) as [[B E]|[B (o & E & A)]]; [congruence|].
    destruct (kst_spec d2 None None) as [[B2 E2]|[B2 (o2 & E2 & A2)]].
    - apply NP in E2. exfalso. apply B.
      pose proof (proj2 (outcome_panic (kst_default_outcome d1))) as Q.
      assert (kst d1 None None = Panic) by (apply Q; lia). congruence.
    - exists o2. split; [easy|]. assert (o = o1) as -> by congruence.
      eapply aligned_prefix; [exact A|exact A2|easy|].
      intros i Hi. symmetry. apply prings_val_prefix; [easy|lia|].
      intros r p m Hin. unfold kst_terms in Hin. cbn [In unwrap_or] in Hin.
      repeat (destruct Hin as [Hin|Hin]; [injection Hin as <- <- <-; lia|]). destruct Hin.
  Qed.
End Prings.
