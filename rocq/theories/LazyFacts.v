(** * LazyFacts: pulling some of the values.

    [take k (f_it ..)] is what a consumer sees who asks the iterator for [k] values
    and then drops it.  For every arithmetic:

    - [.._collect]: draining the iterator gives what the rest of the development
      says the function returns;
    - [.._take]: the first [k] values, and whether pulling them panics, are those of
      a call on the first [k] bars alone;
    - [.._pulls]: from how many values on pulling panics. *)

From Verif Require Import Scale RankCorr VolShape MomShape TrendShape Lazy.
Local Unset Implicit Arguments.

(** ** Streams *)

Lemma drain_map {A B} (f : A -> result B) l : drain (map f l) = rmap f l.
Proof. induction l; cbn; [easy|]. destruct (f a); cbn; [|easy]. now rewrite IHl. Qed.
Lemma drain_lscan {S A B} (f : S -> A -> result (S * B)) s l : drain (lscan f s l) = rscan f s l.
Proof.
  revert s. induction l as [|a l IH]; intros s; cbn; [easy|].
  destruct (f s a) as [[s' b]|]; cbn; [|easy]. now rewrite IH.
Qed.
Lemma drain_lpad {A} k (x : A) s : drain (lpad k x ++ s) = let* v := drain s in Ok (pad k x ++ v).
Proof.
  unfold lpad, pad. induction k; cbn; [now destruct (drain s)|].
  rewrite IHk. now destruct (drain s).
Qed.
Lemma drain_length {A} (s : stream A) o : drain s = Ok o -> length o = length s.
Proof.
  revert o. induction s as [|[v|] s IH]; cbn; intros o; [now intros [= <-]| |easy].
  destruct (drain s) as [r|]; cbn; [|easy]. intros [= <-]. cbn. now rewrite (IH r).
Qed.
Lemma lscan_firstn {S A B} (f : S -> A -> result (S * B)) k s l :
  firstn k (lscan f s l) = lscan f s (firstn k l).
Proof.
  revert k s. induction l as [|a l IH]; intros [|k] s; cbn; [easy..|].
  destruct (f s a) as [[s' b]|]; cbn; [now rewrite IH|now destruct k].
Qed.
Lemma lscan_ext_in {S A B} (f g : S -> A -> result (S * B)) s l :
  (forall s x, In x l -> f s x = g s x) -> lscan f s l = lscan g s l.
Proof.
  revert s; induction l as [|x l IH]; intros s H; cbn; [easy|].
  rewrite H by now left. destruct (g s x) as [[s' b]|]; [|easy].
  now rewrite IH by (intros; apply H; now right).
Qed.
Lemma scan_same {S A B} (f g : S -> A -> S * B) s l : (forall s x, f s x = g s x) -> scan f s l = scan g s l.
Proof.
  intros H. revert s; induction l as [|x l IH]; intros s; cbn; [easy|].
  rewrite H. destruct (g s x). now rewrite IH.
Qed.
Lemma drain_nil {A} k (s : stream A) : drain (firstn k s) = res_map (firstn k) (drain (firstn k s)).
Proof.
  destruct (drain (firstn k s)) as [o|] eqn:E; cbn; [|easy]. apply drain_length in E.
  rewrite firstn_length in E. now rewrite firstn_all2 by lia.
Qed.
Lemma drain_lpad0 {A} k (x : A) : drain (lpad k x) = Ok (pad k x).
Proof. rewrite <- (app_nil_r (lpad k x)), drain_lpad. cbn. now rewrite app_nil_r. Qed.
Lemma firstn_repeat {A} k n (x : A) : firstn k (repeat x n) = repeat x (Nat.min k n).
Proof. revert n. induction k; intros [|n]; cbn; [easy..|]. now rewrite IHk. Qed.
(** The shape all these iterators have: [k0] warm-up values, then the computed ones. *)
Lemma take_pad {A} k k0 (x : A) s :
  drain (firstn k (lpad k0 x ++ s)) = res_map (firstn k) (drain (lpad k0 x ++ firstn (k - k0) s)).
Proof.
  rewrite firstn_app. unfold lpad at 1 2. rewrite repeat_length, firstn_repeat. fold (lpad (Nat.min k k0) x).
  destruct (Nat.le_gt_cases k k0) as [L|L].
  - replace (k - k0) with 0 by lia. rewrite firstn_O, !app_nil_r, !drain_lpad0. cbn [res_map].
    unfold pad. now rewrite firstn_repeat.
  - rewrite Nat.min_r by lia. rewrite !drain_lpad.
    destruct (drain (firstn (k - k0) s)) as [o|] eqn:E; cbn; [|easy].
    apply drain_length in E. rewrite firstn_length in E.
    rewrite firstn_all2; [easy|]. unfold pad. rewrite app_length, repeat_length. lia.
Qed.
Lemma prefix_firstn {A} k (l : list A) : prefix (firstn k l) l.
Proof. exists (skipn k l). symmetry. apply firstn_skipn. Qed.
Lemma firstn_windows {A} w k (l : list A) : 1 <= w ->
  firstn (k - (w - 1)) (windows w l) = windows w (firstn k l).
Proof.
  intros W. pose proof (@prefix_windows _ w _ _ (prefix_firstn k l)) as P.
  transitivity (firstn (length (windows w (firstn k l))) (windows w l)).
  - rewrite length_windows, firstn_length.
    destruct (Nat.le_gt_cases k (length l)); [f_equal; lia|].
    rewrite !firstn_all2 by (rewrite length_windows; lia). easy.
  - rewrite <- (@prefix_firstn_eq _ _ _ _ P (le_n _)). apply firstn_all.
Qed.
Lemma firstn_zip_windows {A} w k (a b : list A) : 1 <= w ->
  firstn (k - (w - 1)) (combine (windows w a) (windows w b)) = combine (windows w (firstn k a)) (windows w (firstn k b)).
Proof. intros W. now rewrite combine_firstn, !firstn_windows. Qed.
Lemma firstn_enumerate {A} k (l : list A) : firstn k (enumerate l) = enumerate (firstn k l).
Proof.
  unfold enumerate. rewrite combine_firstn, firstn_length. f_equal.
  revert k. generalize 0. induction (length l) as [|n IH]; intros a [|k]; cbn; [easy..|]. now rewrite IH.
Qed.
Lemma firstn_seq k a n : firstn k (seq a n) = seq a (Nat.min k n).
Proof. revert a n. induction k; intros a [|n]; cbn; [easy..|]. now rewrite IHk. Qed.

Lemma pulls_of {A} (it : result (stream A)) k (r : result (list A)) bad n :
  take k it = res_map (firstn k) r -> outcome r bad n -> outcome (take k it) bad (Nat.min k n).
Proof.
  intros -> [[B ->]|(B & o & -> & L)]; [now left|]. right. split; [easy|]. exists (firstn k o).
  split; [easy|]. now rewrite firstn_length, L.
Qed.
Lemma outcome_iff {A} (r : result (list A)) bad bad' n n' :
  outcome r bad n -> (bad <-> bad') -> n = n' -> outcome r bad' n'.
Proof. intros [[B E]|(B & H)] I <-; [left|right]; tauto. Qed.

Section Lazy.
  Context {F : Type} {O : FOps F}.
  Local Open Scope nat_scope.
  Implicit Types (data a b : list F).

  Ltac win_collect := unfold collect, usub, rwindows;
    match goal with |- context [1 <=? ?w] => destruct (1 <=? w); cbn [bind]; [|easy] end;
    match goal with |- context [?w =? 0] => destruct (w =? 0); cbn [bind]; [easy|] end;
    now rewrite drain_lpad, drain_map.
  Ltac win_take lem := unfold take, usub, rwindows;
    match goal with |- context [1 <=? ?w] => destruct (Nat.leb_spec 1 w); cbn [bind]; [|easy] end;
    match goal with |- context [?w =? 0] => destruct (Nat.eqb_spec w 0); cbn [bind]; [lia|] end;
    rewrite take_pad, firstn_map, lem by lia; now rewrite drain_lpad, drain_map.

  (** ** One series, one window *)

  Theorem skew_collect data w : collect (skew_it data w) = skew data w.
  Proof. unfold skew_it, skew. win_collect. Qed.
  Theorem skew_take data w k : take k (skew_it data w) = res_map (firstn k) (skew (firstn k data) w).
  Proof. unfold skew_it, skew. win_take (@firstn_windows F). Qed.

  Theorem quantile_collect data w q : collect (quantile_it data w q) = quantile data w q.
  Proof. unfold quantile_it, quantile. win_collect. Qed.
  Theorem quantile_take data w q k :
    take k (quantile_it data w q) = res_map (firstn k) (quantile (firstn k data) w q).
  Proof. unfold quantile_it, quantile. win_take (@firstn_windows F). Qed.

  Theorem median_collect data w : collect (median_it data w) = median data w.
  Proof. apply quantile_collect. Qed.
  Theorem median_take data w k : take k (median_it data w) = res_map (firstn k) (median (firstn k data) w).
  Proof. apply quantile_take. Qed.

  Theorem approx_entropy_collect data w rl tol :
    collect (approx_entropy_it data w rl tol) = approx_entropy data w rl tol.
  Proof.
    unfold approx_entropy_it, approx_entropy. destruct (entropy_tol data tol); [|easy]. cbn [bind].
    win_collect.
  Qed.
  (** The tolerance is settled at the call, from the whole series if none is given. *)
  Theorem approx_entropy_take data w rl tol t k : entropy_tol data tol = Ok t ->
    take k (approx_entropy_it data w rl tol) = res_map (firstn k) (approx_entropy (firstn k data) w rl (Some t)).
  Proof.
    intros E. unfold approx_entropy_it, approx_entropy. rewrite E. cbn [entropy_tol bind].
    win_take (@firstn_windows F).
  Qed.
  Theorem approx_entropy_take_empty w rl k : take k (approx_entropy_it [] w rl None) = Panic.
  Proof. reflexivity. Qed.

  Theorem sample_entropy_collect data w rl tol :
    collect (sample_entropy_it data w rl tol) = sample_entropy data w rl tol.
  Proof.
    unfold sample_entropy_it, sample_entropy. destruct (entropy_tol data tol); [|easy]. cbn [bind].
    win_collect.
  Qed.
  Theorem sample_entropy_take data w rl tol t k : entropy_tol data tol = Ok t ->
    take k (sample_entropy_it data w rl tol) = res_map (firstn k) (sample_entropy (firstn k data) w rl (Some t)).
  Proof.
    intros E. unfold sample_entropy_it, sample_entropy. rewrite E. cbn [entropy_tol bind].
    win_take (@firstn_windows F).
  Qed.
  Theorem sample_entropy_take_empty w rl k : take k (sample_entropy_it [] w rl None) = Panic.
  Proof. reflexivity. Qed.

  Theorem hurst_collect fuel data w mw :
    option_map collect (hurst_it fuel data w mw) = hurst fuel data w mw.
  Proof.
    unfold hurst_it, hurst. destruct (hurst_sizes _ _ _) as [sz|]; [|easy]. cbn [option_map]. f_equal.
    cbv zeta. win_collect.
  Qed.
  Theorem hurst_take fuel data w mw k :
    option_map (take k) (hurst_it fuel data w mw) =
    option_map (res_map (firstn k)) (hurst fuel (firstn k data) w mw).
  Proof.
    unfold hurst_it, hurst. destruct (hurst_sizes _ _ _) as [sz|]; [|easy]. cbn [option_map]. f_equal.
    cbv zeta. win_take (@firstn_windows F).
  Qed.

  (** ** Two series, one window *)

  Ltac pair_collect := unfold collect, usub, zip_windows, rwindows;
    match goal with |- context [1 <=? ?w] => destruct (1 <=? w); cbn [bind]; [|easy] end;
    match goal with |- context [?w =? 0] => destruct (w =? 0); cbn [bind]; [easy|] end;
    now rewrite drain_lpad, drain_map.
  Ltac pair_take := unfold take, usub, zip_windows, rwindows;
    match goal with |- context [1 <=? ?w] => destruct (Nat.leb_spec 1 w); cbn [bind]; [|easy] end;
    match goal with |- context [?w =? 0] => destruct (Nat.eqb_spec w 0); cbn [bind]; [lia|] end;
    rewrite take_pad, firstn_map, firstn_zip_windows by lia; now rewrite drain_lpad, drain_map.

  Theorem srcc_collect srt a b w : collect (srcc_it srt a b w) = srcc srt a b w.
  Proof. unfold srcc_it, srcc. pair_collect. Qed.
  Theorem srcc_take srt a b w k :
    take k (srcc_it srt a b w) = res_map (firstn k) (srcc srt (firstn k a) (firstn k b) w).
  Proof. unfold srcc_it, srcc. pair_take. Qed.
  Theorem krcc_collect a b w : collect (krcc_it a b w) = krcc a b w.
  Proof. unfold krcc_it, krcc. pair_collect. Qed.
  Theorem krcc_take a b w k :
    take k (krcc_it a b w) = res_map (firstn k) (krcc (firstn k a) (firstn k b) w).
  Proof. unfold krcc_it, krcc. pair_take. Qed.
  Theorem hoeffd_collect srt a b w : collect (hoeffd_it srt a b w) = hoeffd srt a b w.
  Proof. unfold hoeffd_it, hoeffd. pair_collect. Qed.
  Theorem hoeffd_take srt a b w k :
    take k (hoeffd_it srt a b w) = res_map (firstn k) (hoeffd srt (firstn k a) (firstn k b) w).
  Proof. unfold hoeffd_it, hoeffd. pair_take. Qed.

  (** ** Running states *)

  Theorem obv_collect close volume : collect (obv_it close volume) = obv close volume.
  Proof. unfold obv_it, obv, collect. cbn [bind drain]. now rewrite drain_lscan. Qed.
  Theorem obv_take close volume k :
    take k (obv_it close volume) = res_map (firstn k) (obv (firstn k close) (firstn k volume)).
  Proof.
    unfold take, obv_it, obv. cbn [bind]. change (Ok fnan :: ?s) with (lpad 1 (@fnan F _) ++ s).
    rewrite take_pad, lscan_firstn, firstn_enumerate, (firstn_windows 2) by lia.
    cbn [lpad repeat app drain bind]. rewrite drain_lscan. f_equal.
    rewrite (rscan_ext_in _ (obv_step (firstn k volume))); [easy|].
    intros s [i p] Hi. apply in_combine_l, in_seq in Hi. rewrite length_windows, firstn_length in Hi.
    unfold obv_step, idx. rewrite nth_error_firstn by lia. easy.
  Qed.

  Theorem vwap_collect high low close volume rs :
    collect (vwap_it high low close volume rs) = vwap high low close volume rs.
  Proof. unfold vwap_it, vwap, collect. cbn [bind]. now rewrite drain_lscan. Qed.
  (** The reset positions in force are those of the call: without any, the length of
      the whole series. *)
  Theorem vwap_take_resets high low close volume rs k :
    take k (vwap_it high low close volume rs) =
    vwap (firstn k high) (firstn k low) (firstn k close) (firstn k volume) (Some (unwrap_or rs [length close])).
  Proof.
    unfold take, vwap_it, vwap. cbn [bind unwrap_or].
    rewrite lscan_firstn, firstn_enumerate, drain_lscan. unfold zip4, zip3. now rewrite !combine_firstn.
  Qed.
  Lemma vwap_far (l : list (F * F * F * F)) s x y p v : s + length l <= x -> s + length l <= y ->
    rscan vwap_step (p, v, [x]) (combine (seq s (length l)) l) =
    rscan vwap_step (p, v, [y]) (combine (seq s (length l)) l).
  Proof.
    revert s p v. induction l as [|[[[h lo] c] vol] l IH]; intros s p v; [easy|].
    cbn [length seq combine rscan vwap_step idx nth_error bind]. intros Hx Hy.
    destruct (Nat.eqb_spec s x); [lia|]. destruct (Nat.eqb_spec s y); [lia|]. cbn [bind].
    now rewrite IH by lia.
  Qed.
  Theorem vwap_take high low close volume rs k :
    take k (vwap_it high low close volume rs) =
    res_map (firstn k) (vwap (firstn k high) (firstn k low) (firstn k close) (firstn k volume) rs).
  Proof.
    transitivity (vwap (firstn k high) (firstn k low) (firstn k close) (firstn k volume) rs).
    - rewrite vwap_take_resets. destruct rs as [rs|]; [easy|]. unfold vwap. cbn [unwrap_or].
      unfold enumerate. apply vwap_far; unfold zip4, zip3, zip2; len; rewrite ?firstn_length; lia.
    - destruct (vwap_outcome (firstn k high) (firstn k low) (firstn k close) (firstn k volume) rs)
        as [[_ ->]|(_ & o & -> & L)]; [easy|]. cbn. rewrite firstn_all2; [easy|]. rewrite L.
      unfold bars4, bars3, bars2. rewrite !firstn_length. lia.
  Qed.

  Theorem mama_collect data fast slow : collect (mama_it data fast slow) = mama data fast slow.
  Proof. unfold mama_it, mama, collect. cbv zeta. cbn [bind]. now rewrite drain_lpad, drain_lscan. Qed.
  Theorem mama_take data fast slow k :
    take k (mama_it data fast slow) = res_map (firstn k) (mama (firstn k data) fast slow).
  Proof.
    unfold take, mama_it, mama. cbv zeta. cbn [bind].
    rewrite take_pad, lscan_firstn, drain_lpad, drain_lscan, firstn_seq, firstn_length. f_equal.
    replace (Nat.min (k - 6) (length data - 6)) with (Nat.min k (length data) - 6) by lia.
    set (sm1 := pad 3 _ ++ map mama_smooth (windows 4 (firstn k data))).
    set (sm2 := pad 3 _ ++ map mama_smooth (windows 4 data)).
    pose proof (prefix_firstn k data) as H.
    assert (Hs : prefix sm1 sm2) by (unfold sm1, sm2; pfx).
    assert (Ls : length sm1 = Nat.max 3 (Nat.min k (length data))).
    { unfold sm1; len; rewrite ?firstn_length; lia. }
    f_equal. apply rscan_ext_in. intros s i Hi. apply in_seq in Hi. unfold mama_step.
    rewrite !(at_prefix sm1 sm2) by (try easy; lia).
    rewrite (at_prefix (firstn k data) data) by (try easy; rewrite firstn_length; lia). reflexivity.
  Qed.

  Theorem rainbow_collect data w lookback : collect (rainbow_it data w lookback) = rainbow data w lookback.
  Proof.
    unfold rainbow_it, rainbow, collect. destruct (sma data w) as [s|]; [|easy]. cbn [bind].
    destruct (rainbow_smas 9 s w) as [smas|]; [|easy]. cbn [bind]. destruct (usub w 1) as [j|]; [|easy].
    cbn [bind]. now rewrite drain_lpad, drain_map.
  Qed.
  Theorem rainbow_take data w lookback k :
    take k (rainbow_it data w lookback) = res_map (firstn k) (rainbow (firstn k data) w lookback).
  Proof.
    unfold take, rainbow_it, rainbow. set (d1 := firstn k data).
    assert (H : prefix d1 data) by apply prefix_firstn.
    assert (Ld : length d1 = Nat.min k (length data)) by apply firstn_length.
    destruct (sma d1 w) as [t1|] eqn:T1.
    2: { destruct (sma_outcome d1 w) as [[-> _]|(_ & o & X & _)]; [|congruence].
         now destruct (sma_outcome data 0) as [[_ ->]|[X _]]. }
    destruct (sma_causal w d1 data H t1 T1) as (t2 & T2 & Pt). rewrite T2.
    pose proof (outcome_length (sma_outcome d1 w) T1) as Lt1.
    assert (w <> 0) by (intros ->; now destruct (sma_outcome d1 0) as [[_ X]|[X _]]; [congruence|]).
    pose proof (outcome_length (sma_outcome data w) T2) as Lt2.
    cbn [bind] in *.
    destruct (rainbow_smas_ok 9 w t1) as (q1 & Q1 & _ & Hq1); [lia|lia|].
    destruct (rainbow_smas_ok 9 w t2) as (q2 & Q2 & _ & Hq2); [lia|lia|].
    rewrite Q1, Q2. cbn [bind]. pose proof (rainbow_smas_causal 9 w t1 t2 q1 q2 Pt Q1 Q2) as Pq.
    unfold usub. destruct (Nat.leb_spec 1 w); [|lia]. cbn [bind].
    rewrite take_pad, firstn_map, firstn_seq, drain_lpad, drain_map. f_equal.
    replace (Nat.min (k - (w - 1) * 10) (length data - (w - 1) * 10)) with (length d1 - (w - 1) * 10) by lia.
    rewrite rmap_ext_in with (f := rainbow_at data q2 lookback) (g := rainbow_at d1 q1 lookback); [easy|].
    intros i Hi. apply in_seq in Hi. unfold rainbow_at.
    rewrite (rmap_idx_forall2 q1 q2) by (try easy; intros s Hs; apply Hq1 in Hs; lia).
    destruct (rmap _ q1); cbn [bind]; [|easy]. destruct (usub lookback 1) as [j|]; cbn [bind]; [|easy].
    destruct (usub i j) as [a'|]; cbn [bind]; [|easy].
    rewrite rmap_ext_in with (f := idx data) (g := idx d1).
    + destruct (rmap (idx d1) _); cbn [bind]; [|easy].
      now rewrite (idx_prefix d1 data) by (easy || lia).
    + intros m Hm. apply in_seq in Hm. apply idx_prefix; [easy|lia].
  Qed.

  (** ** The 32-bit counters *)

  Lemma lscan_i32 {S A B} (g : S -> A -> nat -> S * B) (l : list A) (a : nat) s : (N.of_nat a < 2 ^ 31 - 1)%N ->
    drain (lscan (fun st '(i, x) => let* n := i32_next (i + 1) in Ok (g st x n)) s (combine (seq a (length l)) l)) =
    if (N.of_nat (a + length l) <? 2 ^ 31 - 1)%N
    then Ok (scan (fun st '(x, n) => g st x n) s (combine l (seq (a + 1) (length l)))) else Panic.
  Proof.
    revert a s. induction l as [|x l IH]; intros a s Ha.
    - cbn [length seq combine lscan drain scan]. rewrite Nat.add_0_r.
      destruct (N.ltb_spec (N.of_nat a) (2 ^ 31 - 1)); [easy|lia].
    - cbn [length seq combine lscan scan]. unfold i32_next at 1.
      destruct (N.ltb_spec (N.of_nat (a + 1)) (2 ^ 31 - 1)) as [L|L]; cbn [bind].
      + destruct (g s x (a + 1)) as [s' y]. cbn [drain bind].
        replace (Datatypes.S a) with (a + 1) by lia. rewrite IH by easy.
        replace (a + 1 + length l) with (a + Datatypes.S (length l)) by lia.
        replace (Datatypes.S (a + 1)) with (a + 1 + 1) by lia.
        destruct (_ <? _)%N; reflexivity.
      + cbn [drain bind]. destruct (N.ltb_spec (N.of_nat (a + Datatypes.S (length l))) (2 ^ 31 - 1)); [lia|easy].
  Qed.

  Theorem emae_collect data est : collect (emae_it data est) = emae data est.
  Proof.
    unfold collect, emae_it, emae, zip_i32. cbn [bind]. unfold enumerate.
    set (g := fun (st : F * F) (x : F * F) (n : nat) =>
       ((fadd (fst st) (fabs (fsub (fst x) (snd x))), fadd (snd st) (fmax (fst x) (snd x))),
        fdiv (fmul (fdiv (fadd (fst st) (fabs (fsub (fst x) (snd x)))) (fadd (snd st) (fmax (fst x) (snd x)))) (flit 100 1)) (fofnat n))).
    rewrite (lscan_ext_in _ (fun st '(i, x) => let* n := i32_next (i + 1) in Ok (g st x n)))
      by (intros [s0 s1] [i [x y]] _; reflexivity).
    rewrite lscan_i32 by easy. rewrite Nat.add_0_l. destruct (_ <? _)%N; [|easy]. cbn [bind]. f_equal.
    apply scan_same. intros [s0 s1] [[x y] n]. reflexivity.
  Qed.
  Theorem emae_take data est k :
    take k (emae_it data est) = res_map (firstn k) (emae (firstn k data) (firstn k est)).
  Proof.
    transitivity (emae (firstn k data) (firstn k est)).
    - rewrite <- emae_collect. unfold take, collect, emae_it. cbn [bind].
      now rewrite lscan_firstn, firstn_enumerate, combine_firstn.
    - destruct (emae_outcome (firstn k data) (firstn k est)) as [[_ ->]|(_ & o & -> & L)]; [easy|]. cbn.
      rewrite firstn_all2; [easy|]. rewrite L, !firstn_length. lia.
  Qed.

  Lemma map_combine_scan {S A B C} (f : S -> A -> S * B) (h : C -> B -> F) (es : list C) (l : list A) s :
    map (fun '(e, n) => h e n) (combine es (scan f s (firstn (length es) l))) =
    scan (fun st '(e, x) => let '(st', n) := f st x in (st', h e n)) s (combine es l).
  Proof.
    revert l s. induction es as [|e es IH]; intros [|x l] s; cbn; [easy..|].
    destruct (f s x) as [s' n]. cbn. now rewrite IH.
  Qed.
  Lemma combine_firstn_len {A B} (l : list A) (m : list B) : combine l m = combine l (firstn (length l) m).
  Proof. revert m. induction l; intros [|x m]; cbn; [easy..|]. now rewrite <- IHl. Qed.
  Lemma combine_seq_swap {A B} (l : list A) (m : list B) (g : nat) :
    combine (combine l m) (seq g (length (combine l m))) =
    map (fun '(e, (w, n)) => ((e, w), n)) (combine l (combine (firstn (length l) m) (seq g (length (firstn (length l) m))))).
  Proof.
    revert m g. induction l as [|e l IH]; intros [|x m] g; cbn; [easy..|]. now rewrite IH.
  Qed.
  Lemma scan_map {S A B C} (f : S -> A -> S * B) (h : C -> A) s l :
    scan f s (map h l) = scan (fun st c => f st (h c)) s l.
  Proof. revert s. induction l; intros s; cbn; [easy|]. destruct (f s (h a)). now rewrite IHl. Qed.

  Theorem mase_collect data est : collect (mase_it data est) = mase data est.
  Proof.
    unfold collect, mase_it, mase, zip_i32. cbn [bind drain]. unfold enumerate.
    set (me := skipn 1 (mae data est)). set (ws := windows 2 data).
    set (g := fun (st : F) (x : F * list F) (n : nat) =>
       let st' := fadd st (fabs (fsub (at_ (snd x) 1) (at_ (snd x) 0))) in
       (st', fdiv (fst x) (fdiv st' (fofnat n)))).
    rewrite (lscan_ext_in _ (fun st '(i, x) => let* n := i32_next (i + 1) in Ok (g st x n)))
      by (intros st [i [x y]] _; reflexivity).
    rewrite lscan_i32 by easy. rewrite Nat.add_0_l.
    replace (length (combine me ws)) with (length (firstn (length me) ws))
      by (rewrite combine_length, firstn_length; easy).
    destruct (_ <? _)%N; [|easy]. cbn [bind]. f_equal. f_equal.
    replace (length (firstn (length me) ws)) with (length (combine me ws)) at 1
      by (rewrite combine_length, firstn_length; easy).
    rewrite combine_seq_swap, scan_map.
    set (z := combine (firstn (length me) ws) _).
    assert (Z : firstn (length me) z = z).
    { apply firstn_all2. unfold z. rewrite combine_length, firstn_length. lia. }
    rewrite <- Z at 2. rewrite (map_combine_scan _ fdiv me z).
    apply scan_same. intros st [e [w n]]. reflexivity.
  Qed.
  Lemma scan_firstn {S A B} (f : S -> A -> S * B) k s l : firstn k (scan f s l) = scan f s (firstn k l).
  Proof.
    revert k s. induction l as [|x l IH]; intros [|k] s; cbn; [easy..|now destruct (f s x)|].
    destruct (f s x). cbn. now rewrite IH.
  Qed.
  Lemma mae_firstn data est k : firstn k (mae data est) = mae (firstn k data) (firstn k est).
  Proof.
    unfold mae. rewrite scan_firstn. f_equal. unfold obs_est. now rewrite combine_firstn, firstn_enumerate.
  Qed.
  Theorem mase_take data est k :
    take k (mase_it data est) = res_map (firstn k) (mase (firstn k data) (firstn k est)).
  Proof.
    rewrite <- mase_collect. unfold take, collect, mase_it. cbn [bind].
    change (Ok fnan :: ?s) with (lpad 1 (@fnan F _) ++ s).
    rewrite take_pad, lscan_firstn, firstn_enumerate, combine_firstn, (firstn_windows 2) by lia.
    rewrite <- (mae_firstn data est k).
    replace (firstn (k - 1) (skipn 1 (mae data est))) with (skipn 1 (firstn k (mae data est))); [easy|].
    destruct k, (mae data est); cbn; rewrite ?Nat.sub_0_r; try easy. now rewrite firstn_nil.
  Qed.

  (** ** From how many values on a consumer runs into a panic

      [k = 0] is the call alone: what panics there panics at the call. *)

  Ltac by_take T Out := refine (outcome_iff _ _ _ _ _ (pulls_of _ _ _ _ _ T Out) _ _);
    unfold bars4, bars3, bars2; rewrite ?firstn_length; [|lia].

  Theorem skew_pulls data w k :
    outcome (take k (skew_it data w))
      (w = 0 \/ (w <= Nat.min k (length data) /\ (w = 1 \/ (2 ^ 32 < N.of_nat w)%N)))
      (Nat.min k (Nat.max (w - 1) (length data))).
  Proof. by_take (skew_take data w k) (skew_outcome (firstn k data) w). easy. Qed.

  Theorem krcc_pulls a b w k :
    outcome (take k (krcc_it a b w))
      (w = 0 \/ ((2 ^ 32 < N.of_nat w)%N /\ w <= Nat.min k (Nat.min (length a) (length b))))
      (Nat.min k (Nat.max (w - 1) (Nat.min (length a) (length b)))).
  Proof.
    by_take (krcc_take a b w k) (krcc_outcome (firstn k a) (firstn k b) w).
    split; (intros [E|[E L]]; [now left|right; split; [easy|lia]]).
  Qed.

  Theorem hurst_pulls fuel data w mw sz k :
    hurst_sizes fuel w (flog10 (fofnat (unwrap_or mw 4))) = Some sz ->
    exists r, hurst_it fuel data w mw = Some r /\
      outcome (take k r) (w = 0 \/ (w <= Nat.min k (length data) /\ In 0%N sz))
        (Nat.min k (Nat.max (w - 1) (length data))).
  Proof.
    intros E. destruct (hurst_outcome fuel (firstn k data) w mw sz E) as (r' & Er & Out).
    pose proof (hurst_take fuel data w mw k) as T. rewrite Er in T.
    destruct (hurst_it fuel data w mw) as [r|]; cbn in T; [|easy]. injection T as T.
    exists r. split; [easy|]. by_take T Out. easy.
  Qed.

  (** [obv] with too few volumes: the values for which there is a volume come out, the
      next pull panics. *)
  Theorem obv_pulls close volume k :
    outcome (take k (obv_it close volume))
      (2 <= k /\ 2 <= length close /\ length volume < Nat.min k (length close))
      (Nat.min k (Nat.max 1 (length close))).
  Proof. by_take (obv_take close volume k) (obv_outcome (firstn k close) (firstn k volume)). lia. Qed.

  Theorem vwap_pulls high low close volume rs k :
    outcome (take k (vwap_it high low close volume rs))
      (rs = Some [] /\ 0 < Nat.min k (bars4 high low close volume))
      (Nat.min k (bars4 high low close volume)).
  Proof.
    by_take (vwap_take high low close volume rs k)
      (vwap_outcome (firstn k high) (firstn k low) (firstn k close) (firstn k volume) rs).
    split; intros [E L]; (split; [easy|lia]).
  Qed.

  Theorem rainbow_pulls data w lookback k :
    outcome (take k (rainbow_it data w lookback))
      (w = 0 \/ (10 * (w - 1) < Nat.min k (length data) /\ (lookback = 0 \/ 10 * (w - 1) < lookback - 1)))
      (Nat.min k (Nat.max (10 * (w - 1)) (length data))).
  Proof. by_take (rainbow_take data w lookback k) (rainbow_outcome (firstn k data) w lookback). easy. Qed.

  Theorem emae_pulls data est k :
    outcome (take k (emae_it data est))
      (2 ^ 31 - 1 <= N.of_nat (Nat.min k (Nat.min (length data) (length est))))%N
      (Nat.min k (Nat.min (length data) (length est))).
  Proof. by_take (emae_take data est k) (emae_outcome (firstn k data) (firstn k est)). lia. Qed.

  Theorem mase_pulls data est k :
    outcome (take k (mase_it data est))
      (2 ^ 31 <= N.of_nat (Nat.min k (Nat.min (length data) (length est))))%N
      (Nat.min k (Nat.max 1 (Nat.min (length data) (length est)))).
  Proof. by_take (mase_take data est k) (mase_outcome (firstn k data) (firstn k est)). lia. Qed.

  Lemma comparable_firstn data k : comparable data -> comparable (firstn k data).
  Proof. intros C. apply (comparable_incl data); [easy|]. intros x Hx.
    rewrite <- (firstn_skipn k data). apply in_or_app. now left. Qed.
  Theorem srcc_pulls (srt : sort_oracle F) a b w k :
    (forall l : list F, comparable l -> sorts (srt l) l) -> comparable a -> comparable b ->
    outcome (take k (srcc_it srt a b w)) (w = 0)
      (Nat.min k (Nat.max (w - 1) (Nat.min (length a) (length b)))).
  Proof.
    intros Sr Ca Cb.
    by_take (srcc_take srt a b w k) (srcc_outcome srt Sr (firstn k a) (firstn k b) w (comparable_firstn a k Ca) (comparable_firstn b k Cb)).
    easy.
  Qed.
  Theorem hoeffd_pulls (srt : sort_oracle F) a b w k :
    (forall l : list F, comparable l -> sorts (srt l) l) -> comparable a -> comparable b ->
    outcome (take k (hoeffd_it srt a b w))
      (w = 0 \/ (w <= Nat.min k (Nat.min (length a) (length b)) /\
        (w < 4 \/ (two64 <= N.of_nat w * N.of_nat (w - 1) * N.of_nat (w - 2) * N.of_nat (w - 3) * N.of_nat (w - 4))%N)))
      (Nat.min k (Nat.max (w - 1) (Nat.min (length a) (length b)))).
  Proof.
    intros Sr Ca Cb.
    by_take (hoeffd_take srt a b w k) (hoeffd_outcome srt Sr (firstn k a) (firstn k b) w (comparable_firstn a k Ca) (comparable_firstn b k Cb)).
    split; (intros [E|[L E]]; [now left|right; split; [lia|easy]]).
  Qed.

  (** ** The drained iterator panics exactly when some number of pulls does, and the
         values pulled before are then values the consumer has seen *)

  Theorem pulled_before_panic {A} (s : stream A) : drain s = Panic ->
    exists k o, k < length s /\ take k (Ok s) = Ok o /\ length o = k /\ take (k + 1) (Ok s) = Panic.
  Proof.
    unfold take. cbn [bind]. induction s as [|[v|] s IH]; cbn [drain bind]; [easy| |].
    - intros E. destruct (drain s) as [r|] eqn:D; cbn [bind] in E; [easy|].
      destruct (IH eq_refl) as (k & o & L & T & Lo & P). exists (S k), (v :: o). cbn [length].
      split; [lia|]. cbn [firstn drain bind Nat.add]. rewrite T, P. cbn. now rewrite Lo.
    - intros _. exists 0, []. cbn. repeat split. lia.
  Qed.
  Theorem pulled_prefix {A} (r : result (stream A)) o k : collect r = Ok o -> take k r = Ok (firstn k o).
  Proof.
    destruct r as [s|]; [|easy]. unfold collect, take. cbn [bind]. revert o k.
    induction s as [|[v|] s IH]; cbn [drain bind]; intros o k; [|destruct (drain s) as [r|]; cbn [bind]|easy].
    - intros [= <-]. now rewrite !firstn_nil.
    - intros [= <-]. destruct k; cbn [firstn drain bind]; [easy|]. now rewrite (IH r k eq_refl).
    - easy.
  Qed.
End Lazy.
