(** * Shape of statistic/distribution.rs, statistic/regression.rs and correlation.rs:
    panic domains, lengths and causality.

    Everything here holds for every arithmetic [FOps F]. *)

From Verif Require Export Tac Distribution Regression Correlation SmoothShape.
Local Unset Implicit Arguments.

(** [rmap] over windows: panics iff some window makes the closure panic. *)
Lemma rmap_outcome {A B} (f : A -> result B) l bad :
  ((exists x, In x l /\ f x = Panic) <-> bad) -> outcome (rmap f l) bad (length l).
Proof.
  intros H. destruct (rmap f l) as [o|] eqn:E.
  - right. split; [|exists o; split; [easy|]; now apply (length_rmap E)].
    intros Hb. apply H in Hb. apply rmap_panic_iff in Hb. congruence.
  - left. split; [|easy]. apply H. now apply rmap_panic_iff.
Qed.

Section Shape.
  Context {F : Type} {O : FOps F}.
  Implicit Types (data : list F) (w : nat).

  (** ** distribution.rs *)

  Lemma variance_outcome data w :
    outcome (variance data w) (w = 0) (Nat.max (w - 1) (length data)).
  Proof. unfold variance. zap; fin. Qed.
  Lemma variance_causal w d1 d2 : prefix d1 d2 -> keeps (variance d1 w) (variance d2 w).
  Proof. intros. unfold variance. ksteps. Qed.

  Lemma std_dev_outcome data w :
    outcome (std_dev data w) (w = 0) (Nat.max (w - 1) (length data)).
  Proof.
    unfold std_dev. zap; [|fin]. call (std_dev_raw_outcome data w); fin.
  Qed.
  Lemma std_dev_causal w d1 d2 : prefix d1 d2 -> keeps (std_dev d1 w) (std_dev d2 w).
  Proof. intros. unfold std_dev. ksteps. kcall std_dev_raw_causal. ksteps. Qed.

  Lemma zscore_outcome data w :
    outcome (zscore data w) (w = 0) (Nat.max (w - 1) (length data)).
  Proof. unfold zscore. zap; fin. Qed.
  Lemma zscore_causal w d1 d2 : prefix d1 d2 -> keeps (zscore d1 w) (zscore d2 w).
  Proof. intros. unfold zscore. ksteps. Qed.

  Lemma mad_outcome data w :
    outcome (mad data w) (w = 0) (Nat.max (w - 1) (length data)).
  Proof. unfold mad. zap; fin. Qed.
  Lemma mad_causal w d1 d2 : prefix d1 d2 -> keeps (mad d1 w) (mad d2 w).
  Proof. intros. unfold mad. ksteps. Qed.

  Lemma cv_outcome data w :
    outcome (cv data w) (w = 0) (Nat.max (w - 1) (length data)).
  Proof. unfold cv. zap; fin. Qed.
  Lemma cv_causal w d1 d2 : prefix d1 d2 -> keeps (cv d1 w) (cv d2 w).
  Proof. intros. unfold cv. ksteps. Qed.

  (** [kurtosis] computes its adjustment in [usize]: the product overflows from
      window 2642246 on, whatever the data. *)
  Lemma kurtosis_outcome data w :
    outcome (kurtosis data w) (w < 3 \/ (2642246 <= N.of_nat w)%N)
            (Nat.max (w - 1) (length data)).
  Proof.
    unfold kurtosis, usubN, umul. set (W := N.of_nat w).
    assert (HW : W = N.of_nat w) by reflexivity. clearbody W.
    destruct (N.leb_spec 1 W); cbn [bind]; [|fin].
    destruct (N.leb_spec 2 W); cbn [bind]; [|fin].
    destruct (N.leb_spec 3 W); cbn [bind]; [|fin].
    destruct (N.leb_spec 2642246 W) as [B|B].
    - destruct (N.ltb_spec ((W + 1) * W) two64); cbn [bind]; [|fin].
      destruct (N.ltb_spec ((W + 1) * W * (W - 1)) two64) as [C|C]; cbn [bind]; [|fin].
      exfalso. assert ((2642246 + 1) * 2642246 * (2642246 - 1) <= (W + 1) * W * (W - 1))%N.
      { apply N.mul_le_mono; [apply N.mul_le_mono; lia|lia]. }
      unfold two64 in C. lia.
    - assert (B1 : ((W + 1) * W * (W - 1) <= (2642245 + 1) * 2642245 * (2642245 - 1))%N).
      { apply N.mul_le_mono; [apply N.mul_le_mono; lia|lia]. }
      assert (B2 : ((W + 1) * W <= (2642245 + 1) * 2642245)%N) by (apply N.mul_le_mono; lia).
      assert (B3 : ((W - 2) * (W - 3) <= 2642245 * 2642245)%N) by (apply N.mul_le_mono; lia).
      assert (B4 : ((W - 1) * (W - 1) <= 2642245 * 2642245)%N) by (apply N.mul_le_mono; lia).
      unfold two64.
      destruct (N.ltb_spec ((W + 1) * W) (2 ^ 64)); [|exfalso; lia]; cbn [bind].
      destruct (N.ltb_spec ((W + 1) * W * (W - 1)) (2 ^ 64)); [|exfalso; lia]; cbn [bind].
      destruct (N.ltb_spec ((W - 2) * (W - 3)) (2 ^ 64)); [|exfalso; lia]; cbn [bind].
      destruct (N.ltb_spec ((W - 1) * (W - 1)) (2 ^ 64)); [|exfalso; lia]; cbn [bind].
      zap; fin.
  Qed.
  Lemma kurtosis_causal w d1 d2 : prefix d1 d2 -> keeps (kurtosis d1 w) (kurtosis d2 w).
  Proof. intros. unfold kurtosis. ksteps. Qed.

  Lemma In_windows_ex (l : list F) w : 0 < w <= length l -> exists x, In x (windows w l).
  Proof.
    intros H. exists (firstn w (skipn 0 l)). apply In_windows. exists 0. split; [lia|easy].
  Qed.

  Lemma skew_win_panic w x : skew_win w x = Panic <-> (w < 2 \/ (2 ^ 32 < N.of_nat w)%N).
  Proof.
    unfold skew_win, usubN, umul, usub, two64. set (W := N.of_nat w).
    assert (HW : W = N.of_nat w) by reflexivity. clearbody W.
    destruct (N.leb_spec 1 W); cbn [bind]; [|split; [lia|easy]].
    change (2 ^ 64)%N with (2 ^ 32 * 2 ^ 32)%N.
    destruct (N.ltb_spec (W * (W - 1)) (2 ^ 32 * 2 ^ 32)) as [C|C]; cbn [bind].
    - destruct (Nat.leb_spec 2 w); cbn [bind]; split; intros P; try easy; try (clear C; lia).
      exfalso. set (T := (2 ^ 32)%N) in *. nia.
    - split; [|easy]. intros _. right. set (T := (2 ^ 32)%N) in *. nia.
  Qed.

  Lemma skew_outcome data w :
    outcome (skew data w)
      (w = 0 \/ (w <= length data /\ (w = 1 \/ (2 ^ 32 < N.of_nat w)%N)))
      (Nat.max (w - 1) (length data)).
  Proof.
    unfold skew. zap; try fin.
    assert (R : outcome (rmap (skew_win w) (windows w data))
            (w <= length data /\ (w = 1 \/ (2 ^ 32 < N.of_nat w)%N)) (length (windows w data))).
    { apply rmap_outcome. split.
      - intros (x & Hx & P). apply skew_win_panic in P. apply In_windows in Hx as (i & Hi & _).
        split; lia.
      - intros (Hn & P). destruct (In_windows_ex data w) as [x Hx]; [lia|].
        exists x. split; [easy|]. apply skew_win_panic. lia. }
    call R; len; fin.
  Qed.
  Lemma rmap_keeps {A B} (f : A -> result B) a b :
    prefix a b -> (forall x y, In x a -> f x <> Panic -> f y <> Panic) ->
    (a = [] -> forall y, In y b -> f y <> Panic) -> keeps (rmap f a) (rmap f b).
  Proof.
    intros H U E. destruct a as [|x a].
    - apply keeps_rmap; [easy|]. now apply E.
    - intros o Ho. apply keeps_rmap with (a := x :: a); [easy| |easy].
      intros y _. apply (U x); [now left|]. cbn in Ho. destruct (f x); easy.
  Qed.
  (** [skew] only finds out that its window is too small when a full window
      exists, so a longer series may panic; the printed values never change. *)
  Lemma skew_causal w d1 d2 :
    prefix d1 d2 -> 2 <= w -> (N.of_nat w <= 2 ^ 32)%N -> keeps (skew d1 w) (skew d2 w).
  Proof.
    intros H W1 W2. unfold skew. ksteps. apply keeps_bind.
    - apply keeps_rmap; [easy|]. intros x _ P. apply skew_win_panic in P. lia.
    - intros. ksteps.
  Qed.

  (** ** Entropies *)

  (** number of [true] *)
  Definition trues (l : list bool) : nat := length (filter (fun b => b) l).

  Lemma u8_count_spec l c :
    (c < 256)%N ->
    u8_count l c = if (c + N.of_nat (trues l) <? 256)%N
                   then Ok (c + N.of_nat (trues l))%N else Panic.
  Proof.
    revert c; induction l as [|b l IH]; intros c Hc.
    - change (trues []) with 0. rewrite N.add_0_r. cbn [u8_count].
      destruct (N.ltb_spec c 256); [easy|lia].
    - cbn [u8_count]. unfold u8_incr. destruct b.
      + change (trues (true :: l)) with (S (trues l)).
        destruct (N.ltb_spec (c + 1) 256); cbn [bind].
        * rewrite IH by easy. replace (c + N.of_nat (S (trues l)))%N with (c + 1 + N.of_nat (trues l))%N by lia. easy.
        * destruct (N.ltb_spec (c + N.of_nat (S (trues l))) 256); [lia|easy].
      + change (trues (false :: l)) with (trues l). rewrite N.add_0_r.
        destruct (N.ltb_spec c 256); [|lia]. cbn [bind]. now apply IH.
  Qed.

  (** The runs of length [m] of a window: [near tol ts m i] is how many of them
      lie within the tolerance of run [i], itself included. *)
  Definition near (tol : F) (ts : list F) (m i : nat) : nat :=
    trues (map (fun j => run_match tol (run ts m i) (run ts m j)) (seq 0 (length ts - m + 1))).

  Lemma trues_le l : trues l <= length l.
  Proof.
    unfold trues. induction l as [|[] l IH]; cbn; lia.
  Qed.
  Lemma near_le tol ts m i : near tol ts m i <= length ts - m + 1.
  Proof. unfold near. etransitivity; [apply trues_le|]. len. lia. Qed.

  Lemma phi_panic tol ts m :
    phi tol ts m = Panic <->
    length ts < m \/ exists i, i <= length ts - m /\ 256 <= near tol ts m i.
  Proof.
    unfold phi, usub. destruct (Nat.leb_spec m (length ts)); cbn [bind]; [|split; [lia|easy]].
    set (f := fun i => u8_count _ 0).
    assert (Hf : forall i, f i = Panic <-> 256 <= near tol ts m i).
    { intros i. unfold f. rewrite u8_count_spec by lia. fold (near tol ts m i).
      destruct (N.ltb_spec (0 + N.of_nat (near tol ts m i)) 256); split; try easy; lia. }
    destruct (rmap f (seq 0 (length ts - m + 1))) as [cs|] eqn:E; cbn [bind].
    - split; [easy|]. intros [H0|(i & Hi & Hn)]; [lia|]. apply Hf in Hn.
      assert (rmap f (seq 0 (length ts - m + 1)) = Panic).
      { apply rmap_panic_iff. exists i. split; [apply in_seq; lia|easy]. }
      congruence.
    - split; [|easy]. intros _. right. apply rmap_panic_iff in E as (i & Hi & Hp).
      exists i. apply in_seq in Hi. split; [lia|]. now apply Hf.
  Qed.

  Lemma entropy_tol_outcome data tol :
    entropy_tol data tol = Panic <-> tol = None /\ data = [].
  Proof.
    unfold entropy_tol. destruct tol; [easy|].
    destruct data as [|x data]; [easy|].
    destruct (std_dev_raw_outcome (x :: data) (length (x :: data))) as [[H _]|[_ (o & -> & L)]];
      [easy|]. cbn [bind]. unfold idx. rewrite L.
    destruct o as [|y o]; [cbn in L; lia|]. destruct (@nth_error_is_Some _ (y :: o) (length (x :: data) + 1 - length (x :: data) - 1)).
    - rewrite L. cbn; lia.
    - rewrite H. easy.
  Qed.

  (** The exact panic domain of [approx_entropy]: a window shorter than the runs,
      or more than 255 runs close to one of them. *)
  Lemma approx_entropy_panic data w rl tol :
    approx_entropy data w rl tol = Panic <->
    (tol = None /\ data = []) \/ w = 0 \/
    (w <= length data /\
     (w < unwrap_or rl 2 + 1 \/
      exists t i j m, entropy_tol data tol = Ok t /\ w - 1 <= i < length data /\
        (m = unwrap_or rl 2 \/ m = unwrap_or rl 2 + 1) /\ j <= w - m /\
        256 <= near t (win w data i) m j)).
  Proof.
    unfold approx_entropy. pose proof (entropy_tol_outcome data tol) as ET.
    destruct (entropy_tol data tol) as [t|]; cbn [bind].
    2:{ split; [|easy]. intros _. left. now apply ET. }
    assert (NT : ~ (tol = None /\ data = [])) by (intros X; apply ET in X; easy). clear ET.
    unfold usub, rwindows. destruct (Nat.leb_spec 1 w); cbn [bind]; [|split; [lia|easy]].
    destruct (Nat.eqb_spec w 0); [lia|]. cbn [bind].
    set (rl' := unwrap_or rl 2). match goal with |- context [rmap ?g _] => set (f := g) end.
    assert (Hf : forall x, length x = w -> f x = Panic <->
      w < rl' + 1 \/ exists j m, (m = rl' \/ m = rl' + 1) /\ j <= w - m /\ 256 <= near t x m j).
    { intros x Lx. unfold f. pose proof (phi_panic t x (rl' + 1)) as P1.
      pose proof (phi_panic t x rl') as P2. rewrite Lx in *.
      destruct (phi t x (rl' + 1)); cbn [bind].
      - destruct (phi t x rl'); cbn [bind].
        + split; [easy|]. intros [X|(j & m & [->| ->] & Hj & Hn)].
          * assert (Ok a = Panic) by (apply P1; lia). easy.
          * assert (Ok a0 = Panic) by (apply P2; eauto). easy.
          * assert (Ok a = Panic) by (apply P1; eauto). easy.
        + split; [|easy]. intros _. destruct (proj1 P2 eq_refl) as [X|(i & Hi & Hn)]; [lia|].
          right. eauto 6.
      - split; [|easy]. intros _. destruct (proj1 P1 eq_refl) as [X|(i & Hi & Hn)]; [lia|].
        right. eauto 6. }
    pose proof (@rmap_panic_iff _ _ f (windows w data)) as R.
    destruct (rmap f (windows w data)) as [vs|]; cbn [bind].
    - split; [easy|]. intros [X|[X|(Hn & X)]]; [easy|lia|].
      assert (Ok vs = Panic); [|easy]. apply R.
      destruct X as [X|(t' & i & j & m & [= <-] & Hi & Hm & Hj & HN)].
      + destruct (In_windows_ex data w) as [x Hx]; [lia|]. exists x. split; [easy|].
        apply Hf; [eapply windows_length; [|exact Hx]; lia|]. now left.
      + exists (win w data i). split.
        * apply nth_error_In with (i - (w - 1)). apply nth_error_windows_win; lia.
        * apply Hf; [apply length_win; lia|]. right. eauto 6.
    - split; [|easy]. intros _. right. right.
      destruct (proj1 R eq_refl) as (x & Hx & P).
      pose proof (@windows_length _ _ _ _ (ltac:(lia) : 0 < w) Hx) as Lx.
      apply Hf in P; [|easy]. apply In_windows in Hx as (i & Hi & ->).
      split; [lia|]. destruct P as [P|(j & m & Hm & Hj & HN)]; [now left|right].
      exists t, (i + w - 1), j, m. repeat split; try easy; try lia.
      unfold win. now replace (i + w - 1 + 1 - w) with i by lia.
  Qed.

  (** A window with at most 255 runs never overflows the counter. *)
  Lemma approx_entropy_small data w rl tol :
    data <> [] -> unwrap_or rl 2 < w -> w < unwrap_or rl 2 + 255 ->
    outcome (approx_entropy data w rl tol) False (Nat.max (w - 1) (length data)).
  Proof.
    intros Hd H1 H2. destruct (approx_entropy data w rl tol) as [o|] eqn:E.
    - right. split; [tauto|]. exists o. split; [easy|].
      unfold approx_entropy in E. destruct (entropy_tol data tol); [|easy]. cbn [bind] in E.
      unfold usub, rwindows in E. destruct (Nat.leb_spec 1 w); [|lia].
      destruct (Nat.eqb_spec w 0); [lia|]. cbn [bind] in E.
      destruct (rmap _ _) as [vs|] eqn:R; cbn [bind] in E; [|easy]. injection E as <-.
      apply length_rmap in R. len. lia.
    - exfalso. apply approx_entropy_panic in E.
      destruct E as [[_ E]|[E|(_ & [E|(t & i & j & m & _ & Hi & Hm & Hj & HN)])]]; try easy; try lia.
      pose proof (near_le t (win w data i) m j) as B. rewrite length_win in B by lia. lia.
  Qed.

  (** [sample_entropy] counts close pairs, again in a [u8]. *)
  Definition near_pairs (tol : F) (ts : list F) (m : nat) : nat :=
    trues (map (fun '(i, j) => run_match tol (run ts m i) (run ts m j))
               (upper_pairs (length ts - m + 1))).

  Lemma matches_panic tol ts m :
    matches tol ts m = Panic <-> length ts < m \/ 256 <= near_pairs tol ts m.
  Proof.
    unfold matches, usub. destruct (Nat.leb_spec m (length ts)); cbn [bind]; [|split; [lia|easy]].
    rewrite u8_count_spec by lia. fold (near_pairs tol ts m).
    destruct (N.ltb_spec (0 + N.of_nat (near_pairs tol ts m)) 256); cbn [bind]; split; try easy; lia.
  Qed.

  Lemma sample_entropy_panic data w rl tol :
    sample_entropy data w rl tol = Panic <->
    (tol = None /\ data = []) \/ w = 0 \/
    (w <= length data /\
     (w < unwrap_or rl 2 + 1 \/
      exists t i m, entropy_tol data tol = Ok t /\ w - 1 <= i < length data /\
        (m = unwrap_or rl 2 \/ m = unwrap_or rl 2 + 1) /\
        256 <= near_pairs t (win w data i) m)).
  Proof.
    unfold sample_entropy. pose proof (entropy_tol_outcome data tol) as ET.
    destruct (entropy_tol data tol) as [t|]; cbn [bind].
    2:{ split; [|easy]. intros _. left. now apply ET. }
    assert (NT : ~ (tol = None /\ data = [])) by (intros X; apply ET in X; easy). clear ET.
    unfold usub, rwindows. destruct (Nat.leb_spec 1 w); cbn [bind]; [|split; [lia|easy]].
    destruct (Nat.eqb_spec w 0); [lia|]. cbn [bind].
    set (rl' := unwrap_or rl 2). match goal with |- context [rmap ?g _] => set (f := g) end.
    assert (Hf : forall x, length x = w -> f x = Panic <->
      w < rl' + 1 \/ exists m, (m = rl' \/ m = rl' + 1) /\ 256 <= near_pairs t x m).
    { intros x Lx. unfold f. pose proof (matches_panic t x (rl' + 1)) as P1.
      pose proof (matches_panic t x rl') as P2. rewrite Lx in *.
      destruct (matches t x (rl' + 1)); cbn [bind].
      - destruct (matches t x rl'); cbn [bind].
        + split; [easy|]. intros [X|(m & [->| ->] & Hn)].
          * assert (Ok a = Panic) by (apply P1; lia). easy.
          * assert (Ok a0 = Panic) by (apply P2; eauto). easy.
          * assert (Ok a = Panic) by (apply P1; eauto). easy.
        + split; [|easy]. intros _. destruct (proj1 P2 eq_refl) as [X|X]; [lia|].
          right. eauto 6.
      - split; [|easy]. intros _. destruct (proj1 P1 eq_refl) as [X|X]; [lia|].
        right. eauto 6. }
    pose proof (@rmap_panic_iff _ _ f (windows w data)) as R.
    destruct (rmap f (windows w data)) as [vs|]; cbn [bind].
    - split; [easy|]. intros [X|[X|(Hn & X)]]; [easy|lia|].
      assert (Ok vs = Panic); [|easy]. apply R.
      destruct X as [X|(t' & i & m & [= <-] & Hi & Hm & HN)].
      + destruct (In_windows_ex data w) as [x Hx]; [lia|]. exists x. split; [easy|].
        apply Hf; [eapply windows_length; [|exact Hx]; lia|]. now left.
      + exists (win w data i). split.
        * apply nth_error_In with (i - (w - 1)). apply nth_error_windows_win; lia.
        * apply Hf; [apply length_win; lia|]. right. eauto 6.
    - split; [|easy]. intros _. right. right.
      destruct (proj1 R eq_refl) as (x & Hx & P).
      pose proof (@windows_length _ _ _ _ (ltac:(lia) : 0 < w) Hx) as Lx.
      apply Hf in P; [|easy]. apply In_windows in Hx as (i & Hi & ->).
      split; [lia|]. destruct P as [P|(m & Hm & HN)]; [now left|right].
      exists t, (i + w - 1), m. repeat split; try easy; try lia.
      unfold win. now replace (i + w - 1 + 1 - w) with i by lia.
  Qed.

  Lemma length_upper_pairs n : 2 * length (upper_pairs n) = n * (n - 1).
  Proof.
    unfold upper_pairs.
    assert (G : forall k a, a + k = n ->
      2 * length (flat_map (fun i => map (fun j => (i, j)) (seq (i + 1) (n - (i + 1)))) (seq a k))
      = k * (k - 1)).
    { induction k as [|k IH]; intros a E; cbn [seq flat_map]; [easy|].
      len. specialize (IH (S a) ltac:(lia)). destruct k; [cbn; lia|]. nia. }
    apply (G n 0). lia.
  Qed.

  (** A window with at most 23 runs (at most 253 pairs) never overflows. *)
  Lemma sample_entropy_small data w rl tol :
    data <> [] -> unwrap_or rl 2 < w -> w < unwrap_or rl 2 + 23 ->
    outcome (sample_entropy data w rl tol) False (Nat.max (w - 1) (length data)).
  Proof.
    intros Hd H1 H2. destruct (sample_entropy data w rl tol) as [o|] eqn:E.
    - right. split; [tauto|]. exists o. split; [easy|].
      unfold sample_entropy in E. destruct (entropy_tol data tol); [|easy]. cbn [bind] in E.
      unfold usub, rwindows in E. destruct (Nat.leb_spec 1 w); [|lia].
      destruct (Nat.eqb_spec w 0); [lia|]. cbn [bind] in E.
      destruct (rmap _ _) as [vs|] eqn:R; cbn [bind] in E; [|easy]. injection E as <-.
      apply length_rmap in R. len. lia.
    - exfalso. apply sample_entropy_panic in E.
      destruct E as [[_ E]|[E|(_ & [E|(t & i & m & _ & Hi & Hm & HN)])]]; try easy; try lia.
      assert (B : near_pairs t (win w data i) m <= length (upper_pairs (w - m + 1))).
      { unfold near_pairs. etransitivity; [apply trues_le|]. len. rewrite length_win by lia. lia. }
      pose proof (length_upper_pairs (w - m + 1)).
      assert ((w - m + 1) * (w - m + 1 - 1) <= 23 * 22) by (apply Nat.mul_le_mono; lia). lia.
  Qed.

  (** ** regression.rs *)

  Lemma length_obs_est (d e : list F) : length (obs_est d e) = Nat.min (length d) (length e).
  Proof. unfold obs_est. len. lia. Qed.
  Lemma prefix_obs_est (d1 d2 e1 e2 : list F) :
    prefix d1 d2 -> prefix e1 e2 -> prefix (obs_est d1 e1) (obs_est d2 e2).
  Proof. intros. unfold obs_est. pfx. Qed.
  Hint Resolve prefix_obs_est : pfx.

  Lemma regression_lengths (d e : list F) :
    length (mse d e) = Nat.min (length d) (length e) /\
    length (rmse d e) = Nat.min (length d) (length e) /\
    length (mae d e) = Nat.min (length d) (length e) /\
    length (mape d e) = Nat.min (length d) (length e) /\
    length (smape d e) = Nat.min (length d) (length e).
  Proof.
    unfold mse, rmse, mae, mape, smape. rewrite !length_scan, !length_obs_est. tauto.
  Qed.
  Lemma regression_causal (d1 d2 e1 e2 : list F) :
    prefix d1 d2 -> prefix e1 e2 ->
    prefix (mse d1 e1) (mse d2 e2) /\ prefix (rmse d1 e1) (rmse d2 e2) /\
    prefix (mae d1 e1) (mae d2 e2) /\ prefix (mape d1 e1) (mape d2 e2) /\
    prefix (smape d1 e1) (smape d2 e2).
  Proof.
    intros. unfold mse, rmse, mae, mape, smape. repeat split; pfx.
  Qed.

  Lemma mda_outcome (d e : list F) :
    outcome (mda d e) (d = [] \/ e = []) (Nat.min (length d) (length e)).
  Proof.
    unfold mda. destruct d as [|x d]; [left; split; [now left|reflexivity]|].
    destruct e as [|y e]; [left; split; [now right|reflexivity]|].
    right. split; [now intros [|]|]. cbn [slice_from length Nat.leb bind skipn idx nth_error].
    eexists; split; [reflexivity|]. len. rewrite length_obs_est. lia.
  Qed.
  Lemma mda_causal (d1 d2 e1 e2 : list F) :
    prefix d1 d2 -> prefix e1 e2 -> keeps (mda d1 e1) (mda d2 e2).
  Proof. intros. unfold mda. ksteps. Qed.

  Lemma zip_i32_outcome {A} (l : list A) :
    outcome (zip_i32 l) (2 ^ 31 - 1 <= N.of_nat (length l))%N (length l).
  Proof.
    unfold zip_i32. destruct (N.ltb_spec (N.of_nat (length l)) (2 ^ 31 - 1)); fin.
  Qed.
  Lemma zip_i32_prefix {A} (a b : list A) oa ob :
    prefix a b -> zip_i32 a = Ok oa -> zip_i32 b = Ok ob -> prefix oa ob.
  Proof.
    intros H. unfold zip_i32. destruct (_ <? _)%N; [|easy]. destruct (_ <? _)%N; [|easy].
    intros [= <-] [= <-]. apply prefix_combine; [easy|]. apply prefix_seq, prefix_length, H.
  Qed.

  (** [mase]: the counter of the naive errors is an [i32]. *)
  Lemma mase_outcome (d e : list F) :
    outcome (mase d e)
      (2 ^ 31 <= N.of_nat (Nat.min (length d) (length e)))%N
      (Nat.max 1 (Nat.min (length d) (length e))).
  Proof.
    unfold mase. destruct (regression_lengths d e) as (_ & _ & L & _).
    match goal with |- context [zip_i32 ?l] => call (zip_i32_outcome l) end;
      len; rewrite ?L in *; fin.
  Qed.
  Lemma emae_outcome (d e : list F) :
    outcome (emae d e)
      (2 ^ 31 - 1 <= N.of_nat (Nat.min (length d) (length e)))%N
      (Nat.min (length d) (length e)).
  Proof.
    unfold emae. call (zip_i32_outcome (combine d e)); len; fin.
  Qed.
  (** Causality of [mase] and [emae] (they may panic on the longer series). *)
  Lemma emae_causal (d1 d2 e1 e2 : list F) o1 o2 :
    prefix d1 d2 -> prefix e1 e2 -> emae d1 e1 = Ok o1 -> emae d2 e2 = Ok o2 -> prefix o1 o2.
  Proof.
    intros H1 H2. unfold emae. destruct (zip_i32 (combine d1 e1)) as [z1|] eqn:E1; [|easy].
    destruct (zip_i32 (combine d2 e2)) as [z2|] eqn:E2; [|easy]. cbn [bind].
    intros [= <-] [= <-]. apply prefix_scan. eapply zip_i32_prefix; [|exact E1|exact E2]. pfx.
  Qed.
  Lemma mase_causal (d1 d2 e1 e2 : list F) o1 o2 :
    prefix d1 d2 -> prefix e1 e2 -> mase d1 e1 = Ok o1 -> mase d2 e2 = Ok o2 -> prefix o1 o2.
  Proof.
    intros H1 H2. unfold mase.
    assert (M : prefix (mae d1 e1) (mae d2 e2)) by (unfold mae; pfx).
    destruct (zip_i32 (firstn _ (windows 2 d1))) as [z1|] eqn:E1; [|easy].
    destruct (zip_i32 (firstn _ (windows 2 d2))) as [z2|] eqn:E2; [|easy]. cbn [bind].
    intros [= <-] [= <-]. apply prefix_cons, prefix_map, prefix_combine; [exact (@prefix_skipn _ 1 _ _ M)|].
    apply prefix_scan. eapply zip_i32_prefix; [|exact E1|exact E2].
    pose proof (prefix_length M).
    destruct (regression_lengths d1 e1) as (_ & _ & L & _).
    apply prefix_firstn_len; [pfx| |]; len; lia.
  Qed.

  (** ** correlation.rs *)

  Lemma zip_windows_outcome (a b : list F) w :
    outcome (zip_windows w a b) (w = 0) (Nat.min (length a) (length b) + 1 - w).
  Proof. unfold zip_windows. zap; fin. Qed.
  Lemma zip_windows_causal w (a1 a2 b1 b2 : list F) :
    prefix a1 a2 -> prefix b1 b2 -> keeps (zip_windows w a1 b1) (zip_windows w a2 b2).
  Proof. intros. unfold zip_windows. ksteps. Qed.

  Lemma pcc_outcome (a b : list F) w :
    outcome (pcc a b w) (w = 0) (Nat.max (w - 1) (Nat.min (length a) (length b))).
  Proof.
    unfold pcc. zap; [|fin]. call (zip_windows_outcome a b w); fin.
  Qed.
  Lemma pcc_causal w (a1 a2 b1 b2 : list F) :
    prefix a1 a2 -> prefix b1 b2 -> keeps (pcc a1 b1 w) (pcc a2 b2 w).
  Proof. intros. unfold pcc. ksteps. kcall zip_windows_causal. ksteps. Qed.

  Lemma rsq_outcome (a b : list F) w :
    outcome (rsq a b w) (w = 0) (Nat.max (w - 1) (Nat.min (length a) (length b))).
  Proof. unfold rsq. call (pcc_outcome a b w); fin. Qed.
  Lemma rsq_causal w (a1 a2 b1 b2 : list F) :
    prefix a1 a2 -> prefix b1 b2 -> keeps (rsq a1 b1 w) (rsq a2 b2 w).
  Proof. intros. unfold rsq. kcall pcc_causal. ksteps. Qed.

  Lemma length_returns (s : list F) : length (returns s) = length s - 1.
  Proof. unfold returns. len. lia. Qed.
  Lemma prefix_returns (a b : list F) : prefix a b -> prefix (returns a) (returns b).
  Proof. intros. unfold returns. pfx. Qed.
  Hint Resolve prefix_returns : pfx.

  Lemma beta_outcome (a b : list F) w :
    outcome (beta a b w) (w = 0) (Nat.max (2 * w - 1) (Nat.min (length a) (length b))).
  Proof.
    unfold beta. zap; try fin; call (zip_windows_outcome (returns a) (returns b) w); try fin;
      rewrite ?length_returns in *; try fin.
  Qed.
  Lemma beta_causal w (a1 a2 b1 b2 : list F) :
    prefix a1 a2 -> prefix b1 b2 -> keeps (beta a1 b1 w) (beta a2 b2 w).
  Proof. intros. unfold beta. ksteps. kcall zip_windows_causal. ksteps. Qed.

  Lemma perf_outcome (a b : list F) w :
    outcome (perf a b w) (w = 0) (Nat.min (length a) (length b)).
  Proof. unfold perf. call (sma_outcome a w); [fin|]. call (sma_outcome b w); fin. Qed.
  Lemma perf_causal w (a1 a2 b1 b2 : list F) :
    prefix a1 a2 -> prefix b1 b2 -> keeps (perf a1 b1 w) (perf a2 b2 w).
  Proof. intros. unfold perf. kcall sma_causal. kcall sma_causal. ksteps. Qed.

  Lemma length_rsc (a b : list F) : length (rsc a b) = Nat.min (length a) (length b).
  Proof. unfold rsc. len. lia. Qed.
  Lemma rsc_causal (a1 a2 b1 b2 : list F) :
    prefix a1 a2 -> prefix b1 b2 -> prefix (rsc a1 b1) (rsc a2 b2).
  Proof. intros. unfold rsc. pfx. Qed.

  Lemma dcor_outcome (a b : list F) w :
    outcome (dcor a b w) (w = 0) (Nat.max (w - 1) (Nat.min (length a) (length b))).
  Proof. unfold dcor. zap; [|fin]. call (zip_windows_outcome a b w); fin. Qed.
  Lemma dcor_causal w (a1 a2 b1 b2 : list F) :
    prefix a1 a2 -> prefix b1 b2 -> keeps (dcor a1 b1 w) (dcor a2 b2 w).
  Proof. intros. unfold dcor. ksteps. kcall zip_windows_causal. ksteps. Qed.

  Lemma mic_outcome ord (a b : list F) w :
    outcome (mic ord a b w) (w = 0) (Nat.max (w - 1) (Nat.min (length a) (length b))).
  Proof. unfold mic. zap; [|fin]. call (zip_windows_outcome a b w); fin. Qed.
  Lemma mic_causal ord w (a1 a2 b1 b2 : list F) :
    prefix a1 a2 -> prefix b1 b2 -> keeps (mic ord a1 b1 w) (mic ord a2 b2 w).
  Proof. intros. unfold mic. ksteps. kcall zip_windows_causal. ksteps. Qed.

  Lemma krcc_win_panic w p : krcc_win w p = Panic <-> (2 ^ 32 < N.of_nat w)%N.
  Proof.
    unfold krcc_win, umul, two64. destruct (krcc_counts w (fst p) (snd p)) as [[[nc xyt] xt] yt].
    set (W := N.of_nat w). replace (N.of_nat (w - 1)) with (W - 1)%N by lia. clearbody W.
    change (2 ^ 64)%N with (2 ^ 32 * 2 ^ 32)%N.
    destruct (N.ltb_spec (W * (W - 1)) (2 ^ 32 * 2 ^ 32)) as [C|C]; cbn [bind].
    - split; [easy|]. intros P. exfalso. set (T := (2 ^ 32)%N) in *. nia.
    - split; [|easy]. intros _. set (T := (2 ^ 32)%N) in *. nia.
  Qed.
  Lemma krcc_outcome (a b : list F) w :
    outcome (krcc a b w)
      (w = 0 \/ ((2 ^ 32 < N.of_nat w)%N /\ w <= Nat.min (length a) (length b)))
      (Nat.max (w - 1) (Nat.min (length a) (length b))).
  Proof.
    unfold krcc. zap; try fin. call (zip_windows_outcome a b w); [fin|].
    assert (R : outcome (rmap (krcc_win w) x)
      ((2 ^ 32 < N.of_nat w)%N /\ w <= Nat.min (length a) (length b)) (length x)).
    { apply rmap_outcome. split.
      - intros (p & Hp & P). apply krcc_win_panic in P. split; [easy|].
        destruct x; [easy|]. cbn in L. lia.
      - intros (P & Hw). destruct x as [|p x]; [cbn in L; lia|]. exists p. split; [now left|].
        now apply krcc_win_panic. }
    call R; fin.
  Qed.
  Lemma krcc_causal w (a1 a2 b1 b2 : list F) :
    (N.of_nat w <= 2 ^ 32)%N ->
    prefix a1 a2 -> prefix b1 b2 -> keeps (krcc a1 b1 w) (krcc a2 b2 w).
  Proof.
    intros Hw H1 H2. unfold krcc. ksteps. kcall zip_windows_causal. apply keeps_bind.
    - apply keeps_rmap; [easy|]. intros x _ P. apply krcc_win_panic in P. lia.
    - intros. ksteps.
  Qed.
  (** [srcc] and [hoeffd] may panic on a NaN that only the longer series has;
      what was printed stays. *)
  Lemma srcc_causal srt w (a1 a2 b1 b2 : list F) o1 o2 :
    prefix a1 a2 -> prefix b1 b2 ->
    srcc srt a1 b1 w = Ok o1 -> srcc srt a2 b2 w = Ok o2 -> prefix o1 o2.
  Proof.
    intros H1 H2. unfold srcc. destruct (usub w 1); [|easy]. cbn [bind].
    pose proof (zip_windows_causal w a1 a2 b1 b2 H1 H2) as K.
    destruct (zip_windows w a1 b1) as [z1|]; [|easy].
    destruct (K z1 eq_refl) as (z2 & -> & P). cbn [bind].
    destruct (rmap _ z1) as [v1|] eqn:E1; [|easy]. destruct (rmap _ z2) as [v2|] eqn:E2; [|easy].
    cbn [bind]. intros [= <-] [= <-]. apply prefix_app_l. eapply prefix_rmap; eauto.
  Qed.
  Lemma hoeffd_causal srt w (a1 a2 b1 b2 : list F) o1 o2 :
    prefix a1 a2 -> prefix b1 b2 ->
    hoeffd srt a1 b1 w = Ok o1 -> hoeffd srt a2 b2 w = Ok o2 -> prefix o1 o2.
  Proof.
    intros H1 H2. unfold hoeffd. destruct (usub w 1); [|easy]. cbn [bind].
    pose proof (zip_windows_causal w a1 a2 b1 b2 H1 H2) as K.
    destruct (zip_windows w a1 b1) as [z1|]; [|easy].
    destruct (K z1 eq_refl) as (z2 & -> & P). cbn [bind].
    destruct (rmap _ z1) as [v1|] eqn:E1; [|easy]. destruct (rmap _ z2) as [v2|] eqn:E2; [|easy].
    cbn [bind]. intros [= <-] [= <-]. apply prefix_app_l. eapply prefix_rmap; eauto.
  Qed.
  (** The same for the entropies (given the tolerance; by default it is taken
      from the whole series, so it does not even make sense to extend it) and
      for [skew] and [krcc]. *)
  Lemma approx_entropy_causal w rl t d1 d2 o1 o2 :
    prefix d1 d2 -> approx_entropy d1 w rl (Some t) = Ok o1 ->
    approx_entropy d2 w rl (Some t) = Ok o2 -> prefix o1 o2.
  Proof.
    intros H. unfold approx_entropy. cbn [entropy_tol bind]. destruct (usub w 1); [|easy].
    cbn [bind]. unfold rwindows. destruct (w =? 0); [easy|]. cbn [bind].
    destruct (rmap _ (windows w d1)) as [v1|] eqn:E1; [|easy].
    destruct (rmap _ (windows w d2)) as [v2|] eqn:E2; [|easy].
    cbn [bind]. intros [= <-] [= <-]. apply prefix_app_l.
    eapply prefix_rmap; [|exact E1|exact E2]. pfx.
  Qed.
  Lemma sample_entropy_causal w rl t d1 d2 o1 o2 :
    prefix d1 d2 -> sample_entropy d1 w rl (Some t) = Ok o1 ->
    sample_entropy d2 w rl (Some t) = Ok o2 -> prefix o1 o2.
  Proof.
    intros H. unfold sample_entropy. cbn [entropy_tol bind]. destruct (usub w 1); [|easy].
    cbn [bind]. unfold rwindows. destruct (w =? 0); [easy|]. cbn [bind].
    destruct (rmap _ (windows w d1)) as [v1|] eqn:E1; [|easy].
    destruct (rmap _ (windows w d2)) as [v2|] eqn:E2; [|easy].
    cbn [bind]. intros [= <-] [= <-]. apply prefix_app_l.
    eapply prefix_rmap; [|exact E1|exact E2]. pfx.
  Qed.
  Lemma quantile_causal w q d1 d2 o1 o2 :
    prefix d1 d2 -> quantile d1 w q = Ok o1 -> quantile d2 w q = Ok o2 -> prefix o1 o2.
  Proof.
    intros H. unfold quantile. destruct (usub w 1); [|easy].
    cbn [bind]. unfold rwindows. destruct (w =? 0); [easy|]. cbn [bind].
    destruct (rmap _ (windows w d1)) as [v1|] eqn:E1; [|easy].
    destruct (rmap _ (windows w d2)) as [v2|] eqn:E2; [|easy].
    cbn [bind]. intros [= <-] [= <-]. apply prefix_app_l.
    eapply prefix_rmap; [|exact E1|exact E2]. pfx.
  Qed.
  Lemma median_causal w d1 d2 o1 o2 :
    prefix d1 d2 -> median d1 w = Ok o1 -> median d2 w = Ok o2 -> prefix o1 o2.
  Proof. apply quantile_causal. Qed.
End Shape.
#[global] Hint Resolve prefix_obs_est prefix_returns : pfx.
