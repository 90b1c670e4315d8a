(** * Shape of smooth.rs: panic domains, lengths and causality.

    Everything here holds for every arithmetic [FOps F]. *)

From Verif Require Export Tac Smooth.
Local Unset Implicit Arguments.

Section Shape.
  Context {F : Type} {O : FOps F}.
  Implicit Types (data : list F) (w : nat).

  Lemma std_dev_raw_outcome data w :
    outcome (std_dev_raw data w) (w = 0) (length data + 1 - w).
  Proof. unfold std_dev_raw. zap; fin. Qed.
  Lemma std_dev_raw_causal w d1 d2 : prefix d1 d2 -> keeps (std_dev_raw d1 w) (std_dev_raw d2 w).
  Proof. intros. unfold std_dev_raw. ksteps. Qed.

  Lemma ewma_outcome data w :
    outcome (ewma data w) (w = 0 \/ length data < w) (length data).
  Proof. unfold ewma. zap; fin. Qed.
  Lemma ewma_causal w d1 d2 : prefix d1 d2 -> keeps (ewma d1 w) (ewma d2 w).
  Proof. intros. unfold ewma. ksteps. Qed.

  Lemma sma_outcome data w :
    outcome (sma data w) (w = 0) (Nat.max (w - 1) (length data)).
  Proof. unfold sma. zap; fin. Qed.
  Lemma sma_causal w d1 d2 : prefix d1 d2 -> keeps (sma d1 w) (sma d2 w).
  Proof. intros. unfold sma. ksteps. Qed.

  Lemma dema_outcome data w :
    outcome (dema data w) (w = 0 \/ length data < 2 * w - 1) (length data).
  Proof.
    unfold dema. call (ewma_outcome data w); [fin|]. zap.
    call (ewma_outcome (skipn (w - 1) x) w); len; fin.
  Qed.
  Lemma dema_causal w d1 d2 : prefix d1 d2 -> keeps (dema d1 w) (dema d2 w).
  Proof. intros. unfold dema. kcall ewma_causal. ksteps. kcall ewma_causal. ksteps. Qed.

  Lemma tema_outcome data w :
    outcome (tema data w) (w = 0 \/ length data < 3 * w - 2) (length data).
  Proof.
    unfold tema. call (ewma_outcome data w); [fin|]. zap.
    call (ewma_outcome (skipn (w - 1) x) w); len; [fin|]. zap.
    call (ewma_outcome (skipn (w - 1) x0) w); len; fin.
  Qed.
  Lemma tema_causal w d1 d2 : prefix d1 d2 -> keeps (tema d1 w) (tema d2 w).
  Proof.
    intros. unfold tema. kcall ewma_causal. ksteps. kcall ewma_causal. ksteps.
    kcall ewma_causal. ksteps.
  Qed.

  Lemma wma_weights_outcome w :
    outcome (wma_weights (F := F) w) (2 ^ 32 <= N.of_nat w)%N w.
  Proof.
    unfold wma_weights, umul, uadd, two64.
    set (W := N.of_nat w).
    destruct (N.ltb_spec (W * W) (2 ^ 64)) as [H|H]; cbn [bind].
    - destruct (N.ltb_spec (W * W + W) (2 ^ 64)) as [H'|H']; cbn [bind].
      + right. split; [|eexists; split; [reflexivity|now len]]. change (2 ^ 64)%N with (2 ^ 32 * 2 ^ 32)%N in *.
        set (T := (2 ^ 32)%N) in *. nia.
      + left. split; [|reflexivity]. change (2 ^ 64)%N with (2 ^ 32 * 2 ^ 32)%N in *.
        set (T := (2 ^ 32)%N) in *. nia.
    - left. split; [|reflexivity]. change (2 ^ 64)%N with (2 ^ 32 * 2 ^ 32)%N in *.
      set (T := (2 ^ 32)%N) in *. nia.
  Qed.

  Lemma wma_outcome data w :
    outcome (wma data w) (w = 0 \/ (2 ^ 32 <= N.of_nat w)%N) (Nat.max (w - 1) (length data)).
  Proof.
    unfold wma. call (wma_weights_outcome w); [fin|]. zap; fin.
  Qed.
  Lemma wma_causal w d1 d2 : prefix d1 d2 -> keeps (wma d1 w) (wma d2 w).
  Proof. intros. unfold wma. ksteps. Qed.

  Lemma wilder_outcome data w :
    outcome (wilder data w) (w = 0 \/ length data < w - 1) (length data).
  Proof. unfold wilder. zap; fin. Qed.
  Lemma wilder_causal w d1 d2 : prefix d1 d2 -> keeps (wilder d1 w) (wilder d2 w).
  Proof. intros. unfold wilder. ksteps. Qed.

  (** The last window of [hull]: [(window as f64).sqrt().floor() as usize]. *)
  Definition fsqrtN w : nat := N.to_nat (ftoN (ffloor (fsqrt (fofnat w)))).

  Lemma hull_outcome data w :
    outcome (hull data w)
      (w = 0 \/ (2 ^ 32 <= N.of_nat w)%N \/ fsqrtN w = 0 \/ (2 ^ 32 <= N.of_nat (fsqrtN w))%N)
      (Nat.max (fsqrtN w - 1) (Nat.max (div_ceil2 w - 1) (length data))).
  Proof.
    unfold hull. fold (fsqrtN w). pose proof (div_ceil2_spec w).
    call (wma_outcome data w); [fin|].
    call (wma_outcome data (div_ceil2 w)); [fin|].
    match goal with |- outcome (wma ?d ?q) _ _ => call (wma_outcome d q) end; len; fin.
  Qed.
  Lemma hull_causal w d1 d2 : prefix d1 d2 -> keeps (hull d1 w) (hull d2 w).
  Proof.
    intros. unfold hull. kcall wma_causal. kcall wma_causal. apply wma_causal. pfx.
  Qed.

  Lemma vidya_outcome data w :
    outcome (vidya data w) False (Nat.max 23 (length data)).
  Proof.
    unfold vidya. call (std_dev_raw_outcome data 5); [fin|].
    call (sma_outcome x 20); [fin|]. right. split; [tauto|].
    eexists; split; [reflexivity|]. rewrite app_length, length_pad, length_scan, length_zip3,
      !skipn_length, L, L0. lia.
  Qed.
  Lemma vidya_causal w d1 d2 : prefix d1 d2 -> keeps (vidya d1 w) (vidya d2 w).
  Proof.
    intros. unfold vidya. kcall std_dev_raw_causal. kcall sma_causal. ksteps.
  Qed.

  Lemma length_cmo_cum data : length (cmo_cum data) = Nat.max 1 (length data).
  Proof. unfold cmo_cum. len. lia. Qed.
  Lemma prefix_cmo_cum d1 d2 : prefix d1 d2 -> prefix (cmo_cum d1) (cmo_cum d2).
  Proof. intros. unfold cmo_cum. pfx. Qed.
  Hint Resolve prefix_cmo_cum : pfx.
  Lemma length_cmo_raw data w :
    length (cmo_raw data w) = Nat.max 1 (length data) - w.
  Proof. unfold cmo_raw. len. rewrite length_cmo_cum. lia. Qed.
  Lemma prefix_cmo_raw w d1 d2 : prefix d1 d2 -> prefix (cmo_raw d1 w) (cmo_raw d2 w).
  Proof. intros. unfold cmo_raw. pfx. Qed.
  Hint Resolve prefix_cmo_raw : pfx.

  Lemma vma_outcome data w :
    outcome (vma data w) False (Nat.max (Nat.max w 9) (length data)).
  Proof.
    unfold vma. right. split; [tauto|]. eexists; split; [reflexivity|].
    len. rewrite length_cmo_raw. lia.
  Qed.
  Lemma vma_causal w d1 d2 : prefix d1 d2 -> keeps (vma d1 w) (vma d2 w).
  Proof. intros. unfold vma. ksteps. Qed.

  Lemma lrf_outcome data w :
    outcome (lrf data w) (w = 0 \/ (2 ^ 32 <= N.of_nat w)%N) (Nat.max (w - 1) (length data)).
  Proof.
    unfold lrf, umul, two64.
    destruct (N.ltb_spec (N.of_nat w * N.of_nat (w + 1)) (2 ^ 64)) as [H|H]; cbn [bind];
      change (2 ^ 64)%N with (2 ^ 32 * 2 ^ 32)%N in *; set (T := (2 ^ 32)%N) in *.
    - assert (~ (T <= N.of_nat w)%N) by nia. zap; fin.
    - assert (T <= N.of_nat w)%N by nia. fin.
  Qed.
  Lemma lrf_causal w d1 d2 : prefix d1 d2 -> keeps (lrf d1 w) (lrf d2 w).
  Proof. intros. unfold lrf. ksteps. Qed.

  (** The two windows of [trima]. *)
  Definition trima_w1 w : nat := div_ceil2 w.
  Definition trima_w2 w : nat := if Nat.even w then div_ceil2 w + 1 else div_ceil2 w.

  Lemma trima_outcome data w :
    outcome (trima data w) (w = 0) (Nat.max (w / 2) (length data)).
  Proof.
    unfold trima. pose proof (div_ceil2_spec w).
    pose proof (Nat.div_mod w 2). pose proof (Nat.mod_upper_bound w 2).
    call (sma_outcome data (div_ceil2 w)); [fin|].
    match goal with |- outcome (sma ?d ?q) _ _ => call (sma_outcome d q) end;
      destruct (Nat.eqb_spec (w mod 2) 0); fin.
  Qed.
  Lemma trima_causal w d1 d2 : prefix d1 d2 -> keeps (trima d1 w) (trima d2 w).
  Proof. intros. unfold trima. kcall sma_causal. now apply sma_causal. Qed.

  Lemma zlma_outcome data w :
    outcome (zlma data w) (w = 0 \/ length data < w + (w - 1) / 2) (length data).
  Proof.
    unfold zlma. unfold usub. destruct (Nat.leb_spec 1 w); cbn [bind]; [|fin].
    unfold slice_from. set (lag := (w - 1) / 2).
    destruct (Nat.leb_spec lag (length data)); cbn [bind]; [|fin].
    match goal with |- context [ewma ?d ?q] => call (ewma_outcome d q) end; len; fin.
  Qed.
  Lemma zlma_causal w d1 d2 : prefix d1 d2 -> keeps (zlma d1 w) (zlma d2 w).
  Proof. intros. unfold zlma. ksteps. kcall ewma_causal. ksteps. Qed.

  Lemma kernel_outcome data sigma : outcome (kernel data sigma) False (length data).
  Proof. unfold kernel. fin. Qed.
  Lemma kernel_causal sigma d1 d2 : prefix d1 d2 -> keeps (kernel d1 sigma) (kernel d2 sigma).
  Proof.
    intros H. unfold kernel. apply keeps_Ok. pose proof (prefix_length H).
    replace (length d2) with (length d1 + (length d2 - length d1))%nat by lia.
    rewrite seq_app, map_app. eexists. f_equal. apply map_ext_in. intros i Hi.
    apply in_seq in Hi. do 3 f_equal. symmetry. apply prefix_firstn_eq; [easy|lia].
  Qed.

  Lemma kama_outcome data w short long :
    outcome (kama data w short long) (w = 0) (Nat.max (w - 1) (length data)).
  Proof. unfold kama. zap; fin. Qed.
  Lemma kama_causal w short long d1 d2 :
    prefix d1 d2 -> keeps (kama d1 w short long) (kama d2 w short long).
  Proof. intros. unfold kama. ksteps. Qed.

  Lemma alma_outcome data w sigma mu :
    outcome (alma data w sigma mu) (w = 0) (Nat.max w (length data)).
  Proof. unfold alma. zap; fin. Qed.

  Lemma at_prefix d1 d2 i : prefix d1 d2 -> i < length d1 -> at_ d2 i = at_ d1 i.
  Proof. intros [c ->] H. unfold at_. now rewrite app_nth1. Qed.

  Lemma alma_causal w sigma mu d1 d2 :
    prefix d1 d2 -> keeps (alma d1 w sigma mu) (alma d2 w sigma mu).
  Proof.
    intros H. unfold alma. kstep. apply keeps_Ok. apply prefix_app_l.
    pose proof (prefix_length H).
    replace (length d2 - w)%nat with ((length d1 - w) + ((length d2 - w) - (length d1 - w)))%nat by lia.
    rewrite seq_app, map_app. eexists. f_equal. apply map_ext_in. intros i Hi.
    apply in_seq in Hi. f_equal. apply map_ext_in. intros j Hj. apply at_prefix; [easy|].
    lia.
  Qed.

  Lemma mdma_outcome data w : outcome (mdma data w) (data = []) (length data).
  Proof.
    unfold mdma. destruct data as [|d0 data]; [left; split; reflexivity|].
    right. split; [easy|]. cbn. eexists; split; [reflexivity|]. now len.
  Qed.
  Lemma mdma_causal w d1 d2 : prefix d1 d2 -> keeps (mdma d1 w) (mdma d2 w).
  Proof. intros. unfold mdma. ksteps. Qed.

  Lemma hwma_outcome data a b c : outcome (hwma data a b c) (data = []) (length data).
  Proof.
    unfold hwma. destruct data as [|d0 data]; [left; split; reflexivity|].
    right. split; [easy|]. cbn [idx nth_error bind]. eexists; split; [reflexivity|]. now len.
  Qed.
  Lemma hwma_causal a b c d1 d2 : prefix d1 d2 -> keeps (hwma d1 a b c) (hwma d2 a b c).
  Proof. intros. unfold hwma. ksteps. Qed.

  Lemma fwma_outcome data w :
    outcome (fwma data w) (w < 2) (Nat.max (w - 1) (length data)).
  Proof. unfold fwma. zap; fin. Qed.
  Lemma fwma_causal w d1 d2 : prefix d1 d2 -> keeps (fwma d1 w) (fwma d2 w).
  Proof. intros. unfold fwma. ksteps. Qed.

  Lemma ssf_outcome data w tri :
    outcome (ssf data w tri) (length data < if unwrap_or tri false then 3 else 2) (length data).
  Proof.
    unfold ssf. destruct (unwrap_or tri false).
    - destruct data as [|d0 [|d1 [|d2 data]]]; cbn [bind slice_from length Nat.leb idx nth_error skipn];
        cbn; try (left; split; [lia|reflexivity]).
      right. split; [lia|]. eexists; split; [reflexivity|]. cbn. now len.
    - destruct data as [|d0 [|d1 data]]; cbn [bind slice_from length Nat.leb idx nth_error skipn];
        cbn; try (left; split; [lia|reflexivity]).
      right. split; [lia|]. eexists; split; [reflexivity|]. cbn. now len.
  Qed.
  Lemma ssf_causal w tri d1 d2 : prefix d1 d2 -> keeps (ssf d1 w tri) (ssf d2 w tri).
  Proof. intros. unfold ssf. ksteps. Qed.

  Lemma t3_outcome data w factor :
    outcome (t3 data w factor) (w = 0 \/ length data < 6 * w - 5) (length data).
  Proof.
    unfold t3. call (ewma_outcome data w); [fin|]. zap.
    do 4 (match goal with |- context [ewma ?d ?q] => call (ewma_outcome d q) end;
      [len; fin|]; len; match goal with |- context [Nat.leb ?a ?b] => destruct (Nat.leb_spec a b) end;
      [|exfalso; lia]; cbn [bind]).
    match goal with |- context [ewma ?d ?q] => call (ewma_outcome d q) end; len; fin.
  Qed.
  Lemma t3_causal w factor d1 d2 : prefix d1 d2 -> keeps (t3 d1 w factor) (t3 d2 w factor).
  Proof.
    intros. unfold t3. do 6 (kcall ewma_causal; ksteps).
  Qed.

  (** [frama] answers [Err] (here [Ok None]) exactly on odd windows, panics on
      the window 0, and otherwise yields its series. *)
  Lemma frama_outcome data w :
    (Nat.odd w = true /\ frama data w = Ok None) \/
    (w = 0 /\ frama data w = Panic) \/
    (Nat.odd w = false /\ w <> 0 /\
     exists o, frama data w = Ok (Some o) /\ length o = Nat.max (w - 1) (length data)).
  Proof.
    unfold frama.
    assert (E : (negb (w mod 2 =? 0))%nat = Nat.odd w).
    { rewrite <- Nat.negb_even. f_equal. destruct (Nat.even w) eqn:E.
      - apply Nat.even_spec in E as [k ->]. rewrite Nat.mul_comm, Nat.mod_mul by easy. easy.
      - apply Nat.eqb_neq. intros H. apply Nat.mod_divides in H as [k ->]; [|easy].
        rewrite Nat.even_mul in E. discriminate. }
    rewrite E. destruct (Nat.odd w) eqn:Od; [now left|]. right. zap.
    - right. split; [easy|split; [lia|]]. eexists; split; [reflexivity|]. len; lia.
    - left. split; [lia|easy].
  Qed.
  Lemma frama_causal w d1 d2 o1 : prefix d1 d2 -> frama d1 w = Ok (Some o1) ->
    exists o2, frama d2 w = Ok (Some o2) /\ prefix o1 o2.
  Proof.
    intros H. unfold frama. destruct (negb _); [easy|].
    unfold usub, rwindows. destruct (1 <=? w); [|easy]. cbn [bind].
    destruct (w =? 0); [easy|]. cbn [bind]. intros [= <-].
    eexists; split; [reflexivity|]. pfx.
  Qed.

  (** [mama]'s shape, when it returns; its panics depend on the data (C17). *)
  Lemma mama_length data fast slow o :
    mama data fast slow = Ok o -> length o = Nat.max 6 (length data).
  Proof.
    unfold mama. destruct (rscan _ _ _) as [vs|] eqn:E; [|easy]. cbn [bind]. intros [= <-].
    apply length_rscan in E. len. lia.
  Qed.
  Lemma rscan_ext_in {S A B} (f g : S -> A -> result (S * B)) s l :
    (forall s x, In x l -> f s x = g s x) -> rscan f s l = rscan g s l.
  Proof.
    revert s; induction l as [|x l IH]; intros s H; cbn; [easy|].
    rewrite H by now left. destruct (g s x) as [[s' b]|]; cbn; [|easy].
    now rewrite IH by (intros; apply H; now right).
  Qed.
  (** Causality of [mama] in the runs that return. *)
  Lemma mama_causal fast slow d1 d2 o1 o2 :
    prefix d1 d2 -> mama d1 fast slow = Ok o1 -> mama d2 fast slow = Ok o2 -> prefix o1 o2.
  Proof.
    intros H. unfold mama.
    set (sm1 := pad 3 _ ++ map mama_smooth (windows 4 d1)).
    set (sm2 := pad 3 _ ++ map mama_smooth (windows 4 d2)).
    assert (Hs : prefix sm1 sm2) by (unfold sm1, sm2; pfx).
    assert (Ls : length sm1 = Nat.max 3 (length d1)) by (unfold sm1; len; lia).
    destruct (rscan _ _ (seq 6 (length d1 - 6))) as [v1|] eqn:E1; [|easy].
    destruct (rscan _ _ (seq 6 (length d2 - 6))) as [v2|] eqn:E2; [|easy].
    cbn [bind]. intros [= <-] [= <-]. do 6 apply prefix_cons.
    erewrite rscan_ext_in in E1.
    - eapply prefix_rscan; [|exact E1|exact E2]. apply prefix_seq.
      pose proof (prefix_length H). lia.
    - intros s i Hi. apply in_seq in Hi. unfold mama_step.
      rewrite !(at_prefix sm1 sm2) by (try easy; lia).
      rewrite (at_prefix d1 d2) by (try easy; lia). reflexivity.
  Qed.
End Shape.
#[global] Hint Resolve prefix_cmo_cum prefix_cmo_raw : pfx.
