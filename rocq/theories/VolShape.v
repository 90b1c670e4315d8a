(** * Shape of volume.rs and volatility.rs: panic domains, lengths and causality.

    Everything here holds for every arithmetic [FOps F]. *)

From Verif Require Export Tac Volume Volatility SmoothShape DistShape Pascal.
Local Unset Implicit Arguments.

Section Shape.
  Context {F : Type} {O : FOps F}.
  Implicit Types (data open high low close volume : list F) (w : nat).

  (** ** ma *)

  (** When [ma] panics, mode by mode, on [n] bars. *)
  Definition ma_bad (mode : MaMode) (n w : nat) : Prop :=
    match mode with
    | SMA => w = 0
    | EWMA => w = 0 \/ n < w
    | DEMA => w = 0 \/ n < 2 * w - 1
    | TEMA => w = 0 \/ n < 3 * w - 2
    | WMA | LinReg => w = 0 \/ (2 ^ 32 <= N.of_nat w)%N
    | Hull => w = 0 \/ (2 ^ 32 <= N.of_nat w)%N \/ fsqrtN w = 0 \/
              (2 ^ 32 <= N.of_nat (fsqrtN w))%N
    | Pascal => w = 0 \/ 64 <= w
    | Triangle => w = 0
    | Variable_ | Vidya => False
    | Wilder => w = 0 \/ n < w - 1
    | ZeroLag => w = 0 \/ n < w + (w - 1) / 2
    end.
  (** How many items it yields otherwise. *)
  Definition ma_len (mode : MaMode) (n w : nat) : nat :=
    match mode with
    | SMA | WMA | LinReg | Pascal => Nat.max (w - 1) n
    | EWMA | DEMA | TEMA | Wilder | ZeroLag => n
    | Hull => Nat.max (fsqrtN w - 1) (Nat.max (div_ceil2 w - 1) n)
    | Triangle => Nat.max (w / 2) n
    | Variable_ => Nat.max (Nat.max w 9) n
    | Vidya => Nat.max 23 n
    end.
  Lemma ma_outcome data w mode :
    outcome (ma data w mode) (ma_bad mode (length data) w) (ma_len mode (length data) w).
  Proof.
    destruct mode; cbn [ma ma_bad ma_len].
    - apply sma_outcome.
    - apply ewma_outcome.
    - apply dema_outcome.
    - apply tema_outcome.
    - apply wma_outcome.
    - apply hull_outcome.
    - apply lrf_outcome.
    - apply pwma_outcome.
    - apply trima_outcome.
    - apply vma_outcome.
    - apply vidya_outcome.
    - apply wilder_outcome.
    - apply zlma_outcome.
  Qed.
  Lemma ma_causal w mode d1 d2 : prefix d1 d2 -> keeps (ma d1 w mode) (ma d2 w mode).
  Proof.
    intros H. destruct mode; cbn [ma].
    - now apply sma_causal.
    - now apply ewma_causal.
    - now apply dema_causal.
    - now apply tema_causal.
    - now apply wma_causal.
    - now apply hull_causal.
    - now apply lrf_causal.
    - now apply pwma_causal.
    - now apply trima_causal.
    - now apply vma_causal.
    - now apply vidya_causal.
    - now apply wilder_causal.
    - now apply zlma_causal.
  Qed.
  Lemma ma_len_ge mode n w : n <= ma_len mode n w.
  Proof. destruct mode; cbn [ma_len]; lia. Qed.

  (** ** volume.rs *)

  Lemma tail4_outcome high low close volume :
    outcome (tail4 high low close volume) (bars4 high low close volume = 0)
            (bars4 high low close volume - 1).
  Proof. unfold tail4. zap; fin. Qed.
  Lemma tail4_causal h1 h2 l1 l2 c1 c2 v1 v2 :
    prefix h1 h2 -> prefix l1 l2 -> prefix c1 c2 -> prefix v1 v2 ->
    keeps (tail4 h1 l1 c1 v1) (tail4 (F := F) h2 l2 c2 v2).
  Proof. intros. unfold tail4. ksteps. Qed.

  Lemma idx0 {A} (l : list A) : 0 < length l -> exists x, idx l 0 = Ok x.
  Proof. destruct l; cbn; [lia|eauto]. Qed.
  Ltac i0 l := let H := fresh in destruct (idx0 l) as [? H]; [unfold bars4, bars3, bars2 in *; lia|]; rewrite H; clear H; cbn [bind].

  Lemma vforce_outcome high low close volume :
    outcome (vforce high low close volume) (bars4 high low close volume = 0)
            (bars4 high low close volume - 1).
  Proof.
    unfold vforce. call (tail4_outcome high low close volume); [fin|].
    i0 high. i0 low. i0 close. fin.
  Qed.
  Lemma vforce_causal h1 h2 l1 l2 c1 c2 v1 v2 :
    prefix h1 h2 -> prefix l1 l2 -> prefix c1 c2 -> prefix v1 v2 ->
    keeps (vforce h1 l1 c1 v1) (vforce h2 l2 c2 v2).
  Proof. intros. unfold vforce. kcall tail4_causal. ksteps. Qed.
  Lemma vforce_alt_outcome high low close volume :
    outcome (vforce_alt high low close volume) (bars4 high low close volume = 0)
            (bars4 high low close volume - 1).
  Proof.
    unfold vforce_alt. call (tail4_outcome high low close volume); [fin|].
    i0 high. i0 low. i0 close. fin.
  Qed.
  Lemma vforce_alt_causal h1 h2 l1 l2 c1 c2 v1 v2 :
    prefix h1 h2 -> prefix l1 l2 -> prefix c1 c2 -> prefix v1 v2 ->
    keeps (vforce_alt h1 l1 c1 v1) (vforce_alt h2 l2 c2 v2).
  Proof. intros. unfold vforce_alt. kcall tail4_causal. ksteps. Qed.

  Lemma kvo_outcome high low close volume short long alt :
    outcome (kvo high low close volume short long alt)
      (short = 0 \/ long = 0 \/ bars4 high low close volume < Nat.max short long + 1)
      (bars4 high low close volume).
  Proof.
    unfold kvo. destruct (unwrap_or alt true);
      [call (vforce_alt_outcome high low close volume)|call (vforce_outcome high low close volume)];
      try fin; (call (ewma_outcome x short); [fin|]); call (ewma_outcome x long); fin.
  Qed.
  Lemma kvo_causal short long alt h1 h2 l1 l2 c1 c2 v1 v2 :
    prefix h1 h2 -> prefix l1 l2 -> prefix c1 c2 -> prefix v1 v2 ->
    keeps (kvo h1 l1 c1 v1 short long alt) (kvo h2 l2 c2 v2 short long alt).
  Proof.
    intros. unfold kvo. destruct (unwrap_or alt true);
      [kcall vforce_alt_causal|kcall vforce_causal]; kcall ewma_causal; kcall ewma_causal; ksteps.
  Qed.

  Lemma wilder_sum_outcome data w :
    outcome (wilder_sum data w) (w = 0 \/ length data < w - 1) (length data + 1 - w).
  Proof. unfold wilder_sum. zap; fin. Qed.
  Lemma wilder_sum_causal w d1 d2 : prefix d1 d2 -> keeps (wilder_sum d1 w) (wilder_sum d2 w).
  Proof. intros. unfold wilder_sum. ksteps. Qed.

  Lemma twiggs_outcome high low close volume w :
    outcome (twiggs high low close volume w)
      (w = 0 \/ bars4 high low close volume = 0 \/ bars4 high low close volume < w)
      (bars4 high low close volume).
  Proof.
    unfold twiggs. call (tail4_outcome high low close volume); [fin|].
    i0 close. match goal with |- context [wilder_sum ?d w] => call (wilder_sum_outcome d w) end;
      len; [fin|]. zap; call (wilder_sum_outcome (skipn 1 volume) w); len; fin.
  Qed.
  Lemma twiggs_causal w h1 h2 l1 l2 c1 c2 v1 v2 :
    prefix h1 h2 -> prefix l1 l2 -> prefix c1 c2 -> prefix v1 v2 ->
    keeps (twiggs h1 l1 c1 v1 w) (twiggs h2 l2 c2 v2 w).
  Proof.
    intros. unfold twiggs. kcall tail4_causal. ksteps. kcall wilder_sum_causal. ksteps.
    kcall wilder_sum_causal. ksteps.
  Qed.

  Lemma ad_outcome high low close volume alt :
    outcome (ad high low close volume alt)
      (unwrap_or alt false = true /\ bars4 high low close volume = 0)
      (bars4 high low close volume).
  Proof.
    unfold ad. destruct (unwrap_or alt false); cbn [negb].
    - call (tail4_outcome high low close volume); [fin|]. i0 close. fin.
    - right. split; [easy|]. eexists; split; [reflexivity|]. len. unfold bars4, bars3, bars2. lia.
  Qed.
  Lemma ad_causal alt h1 h2 l1 l2 c1 c2 v1 v2 :
    prefix h1 h2 -> prefix l1 l2 -> prefix c1 c2 -> prefix v1 v2 ->
    keeps (ad h1 l1 c1 v1 alt) (ad h2 l2 c2 v2 alt).
  Proof. intros. unfold ad. ksteps. kcall tail4_causal. ksteps. Qed.

  Lemma steps3_outcome close volume :
    outcome (steps3 close volume) (bars2 close volume = 0) (bars2 close volume - 1).
  Proof. unfold steps3. zap; fin. Qed.
  Lemma steps3_causal c1 c2 v1 v2 :
    prefix c1 c2 -> prefix v1 v2 -> keeps (steps3 c1 v1) (steps3 (F := F) c2 v2).
  Proof.
    intros. unfold steps3. apply keeps_init; [easy|]. intros. ksteps.
  Qed.

  Lemma elder_force_outcome close volume w :
    outcome (elder_force close volume w) (w = 0 \/ bars2 close volume < w + 1)
            (bars2 close volume).
  Proof.
    unfold elder_force. call (steps3_outcome close volume); [fin|].
    match goal with |- context [ewma ?d w] => call (ewma_outcome d w) end; len; fin.
  Qed.
  Lemma elder_force_causal w c1 c2 v1 v2 :
    prefix c1 c2 -> prefix v1 v2 -> keeps (elder_force c1 v1 w) (elder_force c2 v2 w).
  Proof. intros. unfold elder_force. kcall steps3_causal. kcall ewma_causal. ksteps. Qed.

  Lemma mfi_outcome high low close volume w :
    outcome (mfi high low close volume w) (w = 0 \/ bars4 high low close volume = 0)
            (Nat.max w (bars4 high low close volume)).
  Proof.
    unfold mfi. call (tail4_outcome high low close volume); [fin|].
    i0 high. i0 low. i0 close. zap; fin.
  Qed.
  Lemma mfi_causal w h1 h2 l1 l2 c1 c2 v1 v2 :
    prefix h1 h2 -> prefix l1 l2 -> prefix c1 c2 -> prefix v1 v2 ->
    keeps (mfi h1 l1 c1 v1 w) (mfi h2 l2 c2 v2 w).
  Proof. intros. unfold mfi. kcall tail4_causal. ksteps. Qed.

  Lemma cmf_outcome high low close volume w :
    outcome (cmf high low close volume w) (w = 0)
            (Nat.max (w - 1) (bars4 high low close volume)).
  Proof. unfold cmf. zap; fin. Qed.
  Lemma cmf_causal w h1 h2 l1 l2 c1 c2 v1 v2 :
    prefix h1 h2 -> prefix l1 l2 -> prefix c1 c2 -> prefix v1 v2 ->
    keeps (cmf h1 l1 c1 v1 w) (cmf h2 l2 c2 v2 w).
  Proof. intros. unfold cmf. ksteps. Qed.

  Lemma tvi_outcome close volume tick :
    outcome (tvi close volume tick) (bars2 close volume = 0) (bars2 close volume).
  Proof. unfold tvi. call (steps3_outcome close volume); fin. Qed.
  Lemma tvi_causal tick c1 c2 v1 v2 :
    prefix c1 c2 -> prefix v1 v2 -> keeps (tvi c1 v1 tick) (tvi c2 v2 tick).
  Proof. intros. unfold tvi. kcall steps3_causal. ksteps. Qed.

  Lemma idx_panic {A} (l : list A) i : idx l i = Panic <-> length l <= i.
  Proof.
    unfold idx. destruct (nth_error l i) eqn:E.
    - split; [easy|]. intros H. apply nth_error_None in H. congruence.
    - apply nth_error_None in E. tauto.
  Qed.
  Lemma idx_cases {A} (l : list A) i :
    (length l <= i /\ idx l i = Panic) \/ (i < length l /\ exists a, idx l i = Ok a).
  Proof.
    unfold idx. destruct (nth_error l i) eqn:E.
    - right. split; [|eauto]. apply nth_error_Some. congruence.
    - left. split; [now apply nth_error_None|easy].
  Qed.
  Ltac icase l i := destruct (idx_cases l i) as [[? ->]|[? [? ->]]]; cbn [bind].
  Lemma ease_bar_panic high low volume i :
    ease_bar high low volume i = Panic <->
    Nat.min (Nat.min (length high) (length low)) (length volume) <= i.
  Proof.
    unfold ease_bar.
    icase high i; [split; [lia|easy]|]. icase low i; [split; [lia|easy]|].
    icase high (i - 1); [lia|]. icase low (i - 1); [lia|].
    icase volume i; (split; [easy || lia|easy || lia]).
  Qed.
  (** [ease] indexes [low] and [volume] by the range of [high]. *)
  Lemma ease_outcome high low volume w :
    outcome (ease high low volume w)
      (w = 0 \/ (2 <= length high /\ (length low < length high \/ length volume < length high)))
      (Nat.max w (Nat.max 1 (length high))).
  Proof.
    unfold ease.
    assert (R : outcome (rmap (ease_bar high low volume) (seq 1 (length high - 1)))
      (2 <= length high /\ (length low < length high \/ length volume < length high))
      (length (seq 1 (length high - 1)))).
    { apply rmap_outcome. split.
      - intros (i & Hi & P). apply in_seq in Hi. apply ease_bar_panic in P. lia.
      - intros H. exists (length high - 1). split; [apply in_seq; lia|].
        apply ease_bar_panic. lia. }
    call R; [fin|]. rewrite seq_length in *. call (sma_outcome x w); fin.
  Qed.
  Lemma rmap_ext_in {A B} (f g : A -> result B) l :
    (forall x, In x l -> f x = g x) -> rmap f l = rmap g l.
  Proof.
    induction l as [|x l IH]; intros H; cbn; [easy|]. rewrite H by now left.
    now rewrite IH by (intros; apply H; now right).
  Qed.
  Lemma idx_prefix {A} (a b : list A) i : prefix a b -> i < length a -> idx b i = idx a i.
  Proof. intros [c ->] H. unfold idx. now rewrite nth_error_app1. Qed.

  Lemma ease_causal w h1 h2 l1 l2 v1 v2 o1 o2 :
    prefix h1 h2 -> prefix l1 l2 -> prefix v1 v2 ->
    ease h1 l1 v1 w = Ok o1 -> ease h2 l2 v2 w = Ok o2 -> prefix o1 o2.
  Proof.
    intros Hh Hl Hv E1 E2.
    destruct (ease_outcome h1 l1 v1 w) as [[_ X]|[B _]]; [congruence|].
    unfold ease in *.
    destruct (rmap (ease_bar h1 l1 v1) _) as [r1|] eqn:R1; [|easy].
    destruct (rmap (ease_bar h2 l2 v2) _) as [r2|] eqn:R2; [|easy]. cbn [bind] in *.
    assert (P : prefix r1 r2).
    { rewrite rmap_ext_in with (g := ease_bar h2 l2 v2) in R1.
      - eapply prefix_rmap; [|exact R1|exact R2]. apply prefix_seq.
        pose proof (prefix_length Hh). lia.
      - intros i Hi. apply in_seq in Hi. unfold ease_bar.
        now rewrite !(idx_prefix h1 h2), !(idx_prefix l1 l2), !(idx_prefix v1 v2) by (easy || lia). }
    pose proof (sma_causal w r1 r2 P) as K.
    destruct (sma r1 w) as [s1|]; [|easy]. destruct (K s1 eq_refl) as (s2 & E & Ps).
    rewrite E in E2. cbn [bind] in *. injection E1 as <-. injection E2 as <-. now apply prefix_cons.
  Qed.

  Lemma rscan_panic_stateless {S A B} (f : S -> A -> result (S * B)) (bad : A -> Prop) s l :
    (forall s x, f s x = Panic <-> bad x) ->
    (rscan f s l = Panic <-> exists x, In x l /\ bad x).
  Proof.
    intros H. revert s; induction l as [|x l IH]; intros s; cbn.
    - split; [easy|]. now intros (? & [] & _).
    - pose proof (H s x) as Hx. destruct (f s x) as [[s' b]|]; cbn.
      + pose proof (IH s') as I. destruct (rscan f s' l); cbn.
        * split; [easy|]. intros (y & [<-|Hy] & By); [now apply Hx in By|].
          assert (@Ok (list B) a = Panic) by (apply I; eauto). easy.
        * split; [|easy]. intros _. destruct (proj1 I eq_refl) as (y & Hy & By). eauto.
      + split; [|easy]. intros _. exists x. split; [now left|]. now apply Hx.
  Qed.
  (** [obv] indexes [volume] by the range of [close]. *)
  Lemma obv_outcome close volume :
    outcome (obv close volume) (2 <= length close /\ length volume < length close)
            (Nat.max 1 (length close)).
  Proof.
    unfold obv.
    assert (R : forall s, rscan (obv_step volume) s (enumerate (windows 2 close)) = Panic <->
            (2 <= length close /\ length volume < length close)).
    { intros s. rewrite (rscan_panic_stateless (obv_step volume) (fun x => length volume <= fst x + 1)).
      - split.
        + intros ([i p] & Hi & Hb). cbn [fst] in Hb. apply in_combine_l in Hi.
          apply in_seq in Hi. rewrite length_windows in Hi. lia.
        + intros H. destruct (nth_error_is_Some (l := enumerate (windows 2 close)) (i := length close - 2)) as [[i p] E].
          * len. lia.
          * exists (i, p). split; [now apply nth_error_In in E|].
            unfold enumerate in E. rewrite nth_error_combine, nth_error_seq in E by (len; lia).
            destruct (nth_error (windows 2 close) (length close - 2)); [|easy].
            injection E as <- <-. cbn [fst]. lia.
      - intros s' [i p]. unfold obv_step. cbn [fst]. pose proof (idx_panic volume (i + 1)) as P.
        destruct (idx volume (i + 1)); cbn [bind]; [|tauto].
        split; [easy|]. intros H. apply P in H. easy. }
    destruct (rscan (obv_step volume) _ _) as [r|] eqn:E; cbn [bind].
    - right. split; [rewrite <- R, E; easy|]. eexists; split; [reflexivity|].
      apply length_rscan in E. len. lia.
    - left. split; [now apply (R _) in E|easy].
  Qed.
  Lemma obv_causal c1 c2 v1 v2 o1 o2 :
    prefix c1 c2 -> prefix v1 v2 -> obv c1 v1 = Ok o1 -> obv c2 v2 = Ok o2 -> prefix o1 o2.
  Proof.
    intros Hc Hv E1 E2. destruct (obv_outcome c1 v1) as [[_ X]|[B _]]; [congruence|].
    unfold obv in *.
    destruct (rscan (obv_step v1) _ _) as [r1|] eqn:R1; [|easy].
    destruct (rscan (obv_step v2) _ _) as [r2|] eqn:R2; [|easy]. cbn [bind] in *.
    injection E1 as <-. injection E2 as <-. apply prefix_cons.
    erewrite rscan_ext_in in R1.
    - eapply prefix_rscan; [|exact R1|exact R2]. pfx.
    - intros s [i p] Hi. apply in_combine_l in Hi. apply in_seq in Hi. rewrite length_windows in Hi.
      unfold obv_step. rewrite (idx_prefix v1 v2) by (easy || lia). reflexivity.
  Qed.

  Lemma length_bw_mfi high low volume : length (bw_mfi high low volume) = bars3 high low volume.
  Proof. unfold bw_mfi, bars3, bars2. now len. Qed.
  Lemma bw_mfi_causal h1 h2 l1 l2 v1 v2 :
    prefix h1 h2 -> prefix l1 l2 -> prefix v1 v2 -> prefix (bw_mfi h1 l1 v1) (bw_mfi h2 l2 v2).
  Proof. intros. unfold bw_mfi. pfx. Qed.

  Lemma length_pvi data volume : length (pvi data volume) = Nat.max 1 (bars2 data volume).
  Proof. unfold pvi, bars2. len. lia. Qed.
  Lemma length_nvi data volume : length (nvi data volume) = Nat.max 1 (bars2 data volume).
  Proof. unfold nvi, bars2. len. lia. Qed.
  Lemma pvi_causal d1 d2 v1 v2 : prefix d1 d2 -> prefix v1 v2 -> prefix (pvi d1 v1) (pvi d2 v2).
  Proof. intros. unfold pvi. pfx. Qed.
  Lemma nvi_causal d1 d2 v1 v2 : prefix d1 d2 -> prefix v1 v2 -> prefix (nvi d1 v1) (nvi d2 v2).
  Proof. intros. unfold nvi. pfx. Qed.

  Lemma rotate1_nonempty {A} (l : list A) : l <> [] -> rotate1 l <> [].
  Proof. destruct l as [|a [|b l]]; cbn; easy. Qed.
  (** [vwap] only panics when it is given an empty list of resets. *)
  Lemma vwap_outcome high low close volume resets :
    outcome (vwap high low close volume resets)
      (resets = Some [] /\ 0 < bars4 high low close volume) (bars4 high low close volume).
  Proof.
    unfold vwap. set (z := zip4 high low close volume).
    assert (Lz : length z = bars4 high low close volume).
    { unfold z, bars4, bars3, bars2. now len. }
    assert (G : forall l tpv vol r, r <> [] -> exists o, rscan vwap_step (tpv, vol, r) l = Ok o).
    { induction l as [|[i [[[h l0] c] v]] l IH]; intros tpv vol r Hr; cbn [rscan]; [eauto|].
      destruct r as [|r0 r]; [easy|]. unfold vwap_step at 1. cbn [idx nth_error bind].
      destruct (i =? r0); cbn [bind]; edestruct IH as [o ->]; cbn [bind]; eauto.
      now apply rotate1_nonempty. }
    destruct resets as [[|r rs]|].
    - cbn [unwrap_or]. destruct z as [|b z].
      + right. cbn in *. split; [lia|]. exists []. split; [easy|]. cbn. lia.
      + left. split; [split; [easy|cbn in Lz; lia]|]. unfold enumerate. cbn [length seq combine rscan].
        destruct b as [[[h l] c] v]. reflexivity.
    - right. split; [easy|]. destruct (G (enumerate z) (flit 0 1) (flit 0 1) (r :: rs) ltac:(easy)) as [o E].
      exists o. split; [exact E|]. apply length_rscan in E. rewrite length_enumerate in E. lia.
    - right. split; [easy|]. destruct (G (enumerate z) (flit 0 1) (flit 0 1) [length close] ltac:(easy)) as [o E].
      exists o. split; [exact E|]. apply length_rscan in E. rewrite length_enumerate in E. lia.
  Qed.
  (** Causality for given reset positions. *)
  Lemma vwap_causal rs h1 h2 l1 l2 c1 c2 v1 v2 o1 o2 :
    prefix h1 h2 -> prefix l1 l2 -> prefix c1 c2 -> prefix v1 v2 ->
    vwap h1 l1 c1 v1 (Some rs) = Ok o1 -> vwap h2 l2 c2 v2 (Some rs) = Ok o2 -> prefix o1 o2.
  Proof.
    intros Hh Hl Hc Hv. unfold vwap. cbn [unwrap_or]. apply prefix_rscan.
    apply prefix_enumerate. pfx.
  Qed.

  Lemma vwma_outcome data volume w :
    outcome (vwma data volume w) (w = 0) (Nat.max (w - 1) (bars2 data volume)).
  Proof. unfold vwma. zap; fin. Qed.
  Lemma vwma_causal w d1 d2 v1 v2 :
    prefix d1 d2 -> prefix v1 v2 -> keeps (vwma d1 v1 w) (vwma d2 v2 w).
  Proof. intros. unfold vwma. ksteps. Qed.

  Lemma vpt_outcome data volume :
    outcome (vpt data volume) (length volume = 0) (Nat.max 1 (bars2 data volume)).
  Proof. unfold vpt. zap; fin. Qed.
  Lemma vpt_causal d1 d2 v1 v2 : prefix d1 d2 -> prefix v1 v2 -> keeps (vpt d1 v1) (vpt d2 v2).
  Proof. intros. unfold vpt. ksteps. Qed.

  (** ** volatility.rs *)

  Lemma length_hl_range high low : length (hl_range high low) = bars2 high low.
  Proof. unfold hl_range, bars2. now len. Qed.
  Lemma prefix_hl_range h1 h2 l1 l2 :
    prefix h1 h2 -> prefix l1 l2 -> prefix (hl_range h1 l1) (hl_range h2 l2).
  Proof. intros. unfold hl_range. pfx. Qed.
  Hint Resolve prefix_hl_range : pfx.

  Lemma mass_outcome high low short long :
    outcome (mass high low short long)
      (short = 0 \/ long = 0 \/ bars2 high low < 2 * short - 1)
      (Nat.max (short + long - 2) (bars2 high low)).
  Proof.
    unfold mass. call (ewma_outcome (hl_range high low) short); rewrite length_hl_range in *; [fin|].
    zap; call (ewma_outcome (skipn (short - 1) x) short); len; try fin; fin.
  Qed.
  Lemma mass_causal short long h1 h2 l1 l2 :
    prefix h1 h2 -> prefix l1 l2 -> keeps (mass h1 l1 short long) (mass h2 l2 short long).
  Proof. intros. unfold mass. kcall ewma_causal. ksteps. kcall ewma_causal. ksteps. Qed.

  Lemma gri_outcome high low w :
    outcome (gri high low w) (w = 0) (Nat.max (w - 1) (bars2 high low)).
  Proof. unfold gri. zap; fin. Qed.
  Lemma gri_causal w h1 h2 l1 l2 :
    prefix h1 h2 -> prefix l1 l2 -> keeps (gri h1 l1 w) (gri h2 l2 w).
  Proof. intros. unfold gri. ksteps. Qed.

  Lemma true_range_outcome high low close :
    outcome (true_range high low close) (bars3 high low close = 0) (bars3 high low close - 1).
  Proof. unfold true_range. zap; fin. Qed.
  Lemma true_range_causal h1 h2 l1 l2 c1 c2 :
    prefix h1 h2 -> prefix l1 l2 -> prefix c1 c2 ->
    keeps (true_range h1 l1 c1) (true_range h2 l2 c2).
  Proof. intros. unfold true_range. ksteps. Qed.

  Lemma tr_outcome high low close :
    outcome (tr high low close) (bars3 high low close = 0) (bars3 high low close).
  Proof. unfold tr. call (true_range_outcome high low close); fin. Qed.
  Lemma tr_causal h1 h2 l1 l2 c1 c2 :
    prefix h1 h2 -> prefix l1 l2 -> prefix c1 c2 -> keeps (tr h1 l1 c1) (tr h2 l2 c2).
  Proof. intros. unfold tr. kcall true_range_causal. ksteps. Qed.

  Lemma atr_outcome high low close w :
    outcome (atr high low close w) (w = 0 \/ bars3 high low close < w) (bars3 high low close).
  Proof.
    unfold atr. call (true_range_outcome high low close).
    - left. split; [lia|easy].
    - call (wilder_outcome x w); fin.
  Qed.
  Lemma atr_causal w h1 h2 l1 l2 c1 c2 :
    prefix h1 h2 -> prefix l1 l2 -> prefix c1 c2 -> keeps (atr h1 l1 c1 w) (atr h2 l2 c2 w).
  Proof. intros. unfold atr. kcall true_range_causal. kcall wilder_causal. ksteps. Qed.

  Lemma keltner_outcome high low close w :
    outcome (keltner high low close w) (w = 0 \/ bars3 high low close < w)
            (bars3 high low close).
  Proof.
    unfold keltner. call (ewma_outcome close w); [fin|].
    call (atr_outcome high low close w); fin.
  Qed.
  Lemma keltner_causal w h1 h2 l1 l2 c1 c2 :
    prefix h1 h2 -> prefix l1 l2 -> prefix c1 c2 ->
    keeps (keltner h1 l1 c1 w) (keltner h2 l2 c2 w).
  Proof. intros. unfold keltner. kcall ewma_causal. kcall atr_causal. ksteps. Qed.

  Lemma length_hlc3 high low close : length (hlc3 high low close) = bars3 high low close.
  Proof. unfold hlc3, bars3, bars2. now len. Qed.
  Lemma prefix_hlc3 h1 h2 l1 l2 c1 c2 :
    prefix h1 h2 -> prefix l1 l2 -> prefix c1 c2 -> prefix (hlc3 h1 l1 c1) (hlc3 h2 l2 c2).
  Proof. intros. unfold hlc3. pfx. Qed.
  Hint Resolve prefix_hlc3 : pfx.
  Lemma typical_outcome high low close w :
    outcome (typical high low close w) (w = 0) (Nat.max (w - 1) (bars3 high low close)).
  Proof. unfold typical. rewrite <- length_hlc3. apply sma_outcome. Qed.
  Lemma typical_causal w h1 h2 l1 l2 c1 c2 :
    prefix h1 h2 -> prefix l1 l2 -> prefix c1 c2 ->
    keeps (typical h1 l1 c1 w) (typical h2 l2 c2 w).
  Proof. intros. unfold typical. apply sma_causal. pfx. Qed.

  Lemma vstd_dev_outcome data w devs :
    outcome (vstd_dev data w devs) (w = 0) (Nat.max (w - 1) (length data)).
  Proof. unfold vstd_dev. call (std_dev_outcome data w); fin. Qed.
  Lemma vstd_dev_causal w devs d1 d2 :
    prefix d1 d2 -> keeps (vstd_dev d1 w devs) (vstd_dev d2 w devs).
  Proof. intros. unfold vstd_dev. kcall std_dev_causal. ksteps. Qed.

  Lemma bbands_outcome data w devs mode :
    outcome (bbands data w devs mode)
      (w = 0 \/ ma_bad (unwrap_or mode EWMA) (length data) w)
      (Nat.min (ma_len (unwrap_or mode EWMA) (length data) w) (Nat.max (w - 1) (length data))).
  Proof.
    unfold bbands. call (ma_outcome data w (unwrap_or mode EWMA)); [left; tauto|].
    call (vstd_dev_outcome data w devs); [left; tauto|].
    right. split; [tauto|]. eexists; split; [reflexivity|]. len. lia.
  Qed.
  Lemma bbands_causal w devs mode d1 d2 :
    prefix d1 d2 -> keeps (bbands d1 w devs mode) (bbands d2 w devs mode).
  Proof. intros. unfold bbands. kcall ma_causal. kcall vstd_dev_causal. ksteps. Qed.

  Lemma donchian_outcome high low w :
    outcome (donchian high low w) (w = 0) (Nat.max (w - 1) (bars2 high low)).
  Proof. unfold donchian. zap; fin. Qed.
  Lemma donchian_causal w h1 h2 l1 l2 :
    prefix h1 h2 -> prefix l1 l2 -> keeps (donchian h1 l1 w) (donchian h2 l2 w).
  Proof. intros. unfold donchian. ksteps. Qed.

  Lemma length_fbands high low : length (fbands high low) = Nat.max 4 (bars2 high low).
  Proof. unfold fbands, bars2. len. lia. Qed.
  Lemma fbands_causal h1 h2 l1 l2 :
    prefix h1 h2 -> prefix l1 l2 -> prefix (fbands h1 l1) (fbands h2 l2).
  Proof. intros. unfold fbands. pfx. Qed.

  Lemma hv_outcome data w devs :
    outcome (hv data w devs) (w = 0) (Nat.max w (length data)).
  Proof. unfold hv, log_returns. zap; fin. Qed.
  Lemma hv_causal w devs d1 d2 : prefix d1 d2 -> keeps (hv d1 w devs) (hv d2 w devs).
  Proof. intros. unfold hv, log_returns. ksteps. Qed.

  Lemma starc_outcome high low close w maw mult :
    outcome (starc high low close w maw mult)
      (w = 0 \/ maw = 0 \/ bars3 high low close < w) (bars3 high low close).
  Proof.
    unfold starc. call (atr_outcome high low close w); [left; split; [tauto|easy]|].
    call (sma_outcome close maw); [left; split; [tauto|easy]|]. fin.
  Qed.
  Lemma starc_causal w maw mult h1 h2 l1 l2 c1 c2 :
    prefix h1 h2 -> prefix l1 l2 -> prefix c1 c2 ->
    keeps (starc h1 l1 c1 w maw mult) (starc h2 l2 c2 w maw mult).
  Proof. intros. unfold starc. kcall atr_causal. kcall sma_causal. ksteps. Qed.

  Lemma cvi_outcome high low w rate :
    outcome (cvi high low w rate) (w = 0 \/ bars2 high low < w) (Nat.max rate (bars2 high low)).
  Proof.
    unfold cvi. call (ewma_outcome (hl_range high low) w); rewrite length_hl_range in *; fin.
  Qed.
  Lemma cvi_causal w rate h1 h2 l1 l2 :
    prefix h1 h2 -> prefix l1 l2 -> keeps (cvi h1 l1 w rate) (cvi h2 l2 w rate).
  Proof. intros. unfold cvi. kcall ewma_causal. ksteps. Qed.

  Lemma rel_vol_pairs_outcome close w :
    outcome (rel_vol_pairs close w) (w < 2 \/ length close < w - 1) (length close + 1 - w).
  Proof.
    unfold rel_vol_pairs. call (std_dev_raw_outcome close w); [fin|]. zap; fin.
  Qed.
  Lemma rel_vol_pairs_causal w c1 c2 :
    prefix c1 c2 -> keeps (rel_vol_pairs c1 w) (rel_vol_pairs c2 w).
  Proof.
    intros H. unfold rel_vol_pairs. kcall std_dev_raw_causal. unfold usub.
    destruct (Nat.leb_spec 1 w); cbn [bind]; [|easy].
    destruct (Nat.leb_spec 2 w); cbn [bind];
      [|unfold slice_from; intros o; destruct (_ <=? _); easy].
    apply keeps_bind; [now apply keeps_slice_from|]. intros ca cb _ _ ?.
    pose proof (prefix_length H).
    destruct (Nat.leb_spec 1 (length c1)); [|easy].
    destruct (Nat.leb_spec 1 (length c2)); [|lia]. cbn [bind]. unfold slice.
    destruct (Nat.leb_spec (w - 2) (length c1 - 1)); cbn [andb bind]; [|easy].
    destruct (Nat.leb_spec (length c1 - 1) (length c1)); [|easy].
    destruct (Nat.leb_spec (w - 2) (length c2 - 1)); cbn [andb bind]; [|lia].
    destruct (Nat.leb_spec (length c2 - 1) (length c2)); [|lia]. cbn [andb bind].
    apply keeps_Ok. apply prefix_map. apply prefix_zip3; [easy|easy|].
    apply prefix_firstn_len; [pfx|len; lia|lia].
  Qed.
  Lemma relative_vol_outcome close w smoothing :
    outcome (relative_vol close w smoothing)
      (w < 2 \/ smoothing = 0 \/ length close < w + smoothing - 2) (length close).
  Proof.
    unfold relative_vol. call (rel_vol_pairs_outcome close w); [fin|].
    call (wilder_outcome (map fst x) smoothing); len; [fin|].
    call (wilder_outcome (map snd x) smoothing); len; [fin|]. zap; fin.
  Qed.
  Lemma relative_vol_causal w smoothing c1 c2 :
    prefix c1 c2 -> keeps (relative_vol c1 w smoothing) (relative_vol c2 w smoothing).
  Proof.
    intros. unfold relative_vol. kcall rel_vol_pairs_causal. kcall wilder_causal.
    kcall wilder_causal. ksteps.
  Qed.
  Lemma inertia_outcome close w smoothing :
    outcome (inertia close w smoothing)
      (w < 2 \/ length close < 2 * w - 2 \/ smoothing = 0 \/ (2 ^ 32 <= N.of_nat smoothing)%N)
      (Nat.max (smoothing - 1) (length close)).
  Proof.
    unfold inertia. call (relative_vol_outcome close w w); [fin|].
    call (lrf_outcome x smoothing); fin.
  Qed.
  Lemma inertia_causal w smoothing c1 c2 :
    prefix c1 c2 -> keeps (inertia c1 w smoothing) (inertia c2 w smoothing).
  Proof. intros. unfold inertia. kcall relative_vol_causal. now apply lrf_causal. Qed.

  Lemma chop_outcome high low close w :
    outcome (chop high low close w) (w = 0 \/ bars3 high low close = 0)
            (Nat.max w (bars3 high low close)).
  Proof.
    unfold chop. zap; try fin. all: call (true_range_outcome high low close); fin.
  Qed.
  Lemma chop_causal w h1 h2 l1 l2 c1 c2 :
    prefix h1 h2 -> prefix l1 l2 -> prefix c1 c2 -> keeps (chop h1 l1 c1 w) (chop h2 l2 c2 w).
  Proof. intros. unfold chop. ksteps. kcall true_range_causal. ksteps. Qed.

  Lemma vhf_outcome high low close w :
    outcome (vhf high low close w) (w = 0) (Nat.max w (bars3 high low close)).
  Proof. unfold vhf, abs_diffs. zap; fin. Qed.
  Lemma vhf_causal w h1 h2 l1 l2 c1 c2 :
    prefix h1 h2 -> prefix l1 l2 -> prefix c1 c2 -> keeps (vhf h1 l1 c1 w) (vhf h2 l2 c2 w).
  Proof. intros. unfold vhf, abs_diffs. ksteps. Qed.

  Lemma heikin_ashi_outcome open high low close :
    outcome (heikin_ashi open high low close) (bars4 open high low close = 0)
            (bars4 open high low close).
  Proof.
    unfold heikin_ashi. destruct open as [|o open]; [left; split; [easy|reflexivity]|].
    destruct high as [|h high]; [left; split; [reflexivity|reflexivity]|].
    destruct low as [|l low]; [left; split; [reflexivity|reflexivity]|].
    destruct close as [|c close]; [left; split; [unfold bars4; cbn; lia|reflexivity]|].
    right. split; [unfold bars4, bars3, bars2; cbn; lia|].
    cbn [idx nth_error bind slice_from length Nat.leb skipn]. eexists; split; [reflexivity|].
    unfold bars4, bars3, bars2. len. lia.
  Qed.
  Lemma heikin_ashi_causal o1 o2 h1 h2 l1 l2 c1 c2 :
    prefix o1 o2 -> prefix h1 h2 -> prefix l1 l2 -> prefix c1 c2 ->
    keeps (heikin_ashi o1 h1 l1 c1) (heikin_ashi o2 h2 l2 c2).
  Proof. intros. unfold heikin_ashi. ksteps. Qed.

  Lemma length_wcp high low close : length (wcp high low close) = bars3 high low close.
  Proof. unfold wcp, bars3, bars2. now len. Qed.
  Lemma wcp_causal h1 h2 l1 l2 c1 c2 :
    prefix h1 h2 -> prefix l1 l2 -> prefix c1 c2 -> prefix (wcp h1 l1 c1) (wcp h2 l2 c2).
  Proof. intros. unfold wcp. pfx. Qed.

  Lemma cc_hv_outcome data w :
    outcome (cc_hv data w) (w = 0) (Nat.max w (length data)).
  Proof. unfold cc_hv. zap; fin. Qed.
  Lemma cc_hv_causal w d1 d2 : prefix d1 d2 -> keeps (cc_hv d1 w) (cc_hv d2 w).
  Proof. intros. unfold cc_hv. ksteps. Qed.

  Lemma gkyz_hv_outcome open high low close w :
    outcome (gkyz_hv open high low close w) (w = 0 \/ bars4 open high low close = 0)
            (Nat.max w (bars4 open high low close)).
  Proof. unfold gkyz_hv. zap; fin. Qed.
  Lemma gkyz_hv_causal w o1 o2 h1 h2 l1 l2 c1 c2 :
    prefix o1 o2 -> prefix h1 h2 -> prefix l1 l2 -> prefix c1 c2 ->
    keeps (gkyz_hv o1 h1 l1 c1 w) (gkyz_hv o2 h2 l2 c2 w).
  Proof. intros. unfold gkyz_hv. ksteps. Qed.
End Shape.
#[global] Hint Resolve prefix_hl_range prefix_hlc3 : pfx.
