(** * The weights of [pwma]: rows of Pascal's triangle, and when they overflow *)

From Verif Require Export Tac Smooth SmoothShape.
Local Unset Implicit Arguments.
Local Open Scope N_scope.

(** Binomial coefficients by Pascal's rule. *)
Fixpoint binom (n k : nat) : N :=
  match n, k with
  | _, O => 1
  | O, S _ => 0
  | S n', S k' => binom n' k' + binom n' (S k')
  end.

Lemma binom_n_0 n : binom n 0 = 1.
Proof. now destruct n. Qed.
Lemma binom_gt n : forall k, (n < k)%nat -> binom n k = 0.
Proof.
  induction n as [|n IH]; intros [|k] H; cbn [binom]; try lia.
  rewrite !IH by lia. lia.
Qed.
Lemma binom_mono_r n m k : (n <= m)%nat -> binom n k <= binom m k.
Proof.
  induction 1 as [|m H IH]; [lia|]. destruct k; cbn [binom]; [now rewrite !binom_n_0|].
  change (binom m (S k)) with (binom m (S k)). lia.
Qed.
(** [C(n,k) * (n-k) = C(n,k+1) * (k+1)] *)
Lemma binom_absorb n : forall k, (k <= n)%nat ->
  binom n k * N.of_nat (n - k) = binom n (S k) * N.of_nat (S k).
Proof.
  induction n as [|n IH]; intros k H.
  - assert (k = 0)%nat as -> by lia. cbn. lia.
  - destruct k as [|k].
    + rewrite binom_n_0. cbn [binom]. rewrite binom_n_0.
      clear H. assert (B1 : binom n 1 = N.of_nat n).
      { specialize (IH 0%nat ltac:(lia)). rewrite binom_n_0 in IH. lia. }
      rewrite B1. lia.
    + cbn [binom]. destruct (Nat.eq_dec k n) as [->|Hk].
      { rewrite (binom_gt n (S n)), (binom_gt n (S (S n))) by lia. lia. }
      pose proof (IH k ltac:(lia)) as E1. pose proof (IH (S k) ltac:(lia)) as E2.
      replace (N.of_nat (S n - S k)) with (N.of_nat (n - k)) by lia.
      replace (N.of_nat (S (S k))) with (N.of_nat (S k) + 1) in * by lia.
      replace (N.of_nat (n - k)) with (N.of_nat (n - S k) + 1) in * by lia.
      nia.
Qed.

(** The same rows, one computed from the other, for evaluation. *)
Fixpoint prow (n : nat) : list N :=
  match n with
  | O => [1]
  | S n' => let r := prow n' in map (fun '(a, b) => a + b) (combine (0 :: r) (r ++ [0]))
  end.
Lemma length_prow n : length (prow n) = S n.
Proof. induction n as [|n IH]; cbn [prow length]; [easy|]. len. lia. Qed.
Lemma nth_prow n : forall k, nth k (prow n) 0 = binom n k.
Proof.
  induction n as [|n IH]; intros k.
  - destruct k as [|[|k]]; reflexivity.
  - cbn [prow]. change 0 with ((fun '(a, b) => a + b) (0, 0)) at 3. rewrite map_nth.
    rewrite combine_nth by (cbn [length]; rewrite app_length; cbn [length]; lia).
    destruct k as [|k]; cbn [nth binom].
    + rewrite app_nth1 by (rewrite length_prow; lia). rewrite IH, binom_n_0. lia.
    + rewrite IH. f_equal. destruct (le_lt_dec (length (prow n)) (S k)) as [H|H].
      * rewrite app_nth2 by easy. rewrite length_prow in *. rewrite binom_gt by lia.
        destruct (S k - S n)%nat as [|[|?]]; reflexivity.
      * rewrite app_nth1 by easy. apply IH.
Qed.
Lemma prow_binom n : prow n = map (binom n) (seq 0 (S n)).
Proof.
  apply nth_ext with (d := 0) (d' := 0).
  - now rewrite length_prow, map_length, seq_length.
  - intros k Hk. rewrite length_prow in Hk. rewrite nth_prow.
    rewrite (nth_indep _ 0 (binom n (S n))) by (rewrite map_length, seq_length; easy).
    rewrite map_nth, seq_nth by easy. reflexivity.
Qed.

Section Loop.
  Variable n : nat.

  Lemma nth_upd {A} (l : list A) i x : (i < length l)%nat -> nth_error (upd l i x) i = Some x.
  Proof. revert i; induction l as [|a l IH]; intros [|i] H; cbn in *; try lia; auto. apply IH; lia. Qed.

  Lemma nth_upd_ne {A} (l : list A) i j x : i <> j -> nth_error (upd l i x) j = nth_error l j.
  Proof.
    revert i j; induction l as [|a l IH]; intros [|i] [|j] H; cbn; auto; try lia.
  Qed.

  Definition okrow (j : nat) (st : list N * N) : Prop :=
    length (fst st) = S n /\ nth_error (fst st) j = Some (binom n j).

  Lemma pascal_step_ok j st st' :
    (2 * S j <= n)%nat -> okrow j st -> pascal_step n st (S j) = Ok st' -> okrow (S j) st'.
  Proof.
    intros Hj [L E]. destruct st as [row d]. cbn [fst] in *. unfold pascal_step, usub, idx.
    destruct (Nat.leb_spec 1 (S j)); [|lia]. cbn [bind]. replace (S j - 1)%nat with j by lia. rewrite E. cbn [bind].
    destruct (Nat.leb_spec j n); [|lia]. cbn [bind]. unfold umul.
    destruct (_ <? two64)%N; [|easy]. cbn [bind].
    rewrite (binom_absorb n j) by lia.
    replace (N.of_nat (j + 1)) with (N.of_nat (S j)) by lia.
    rewrite N.div_mul by lia.
    destruct (nth_error row (S j)) eqn:E1; [|easy]. cbn [bind].
    destruct (Nat.leb_spec (S j) n); [|lia]. cbn [bind].
    match goal with |- context [nth_error (upd row (S j) ?v) (n - S j)] => destruct (nth_error (upd row (S j) v) (n - S j)) eqn:E2; [|easy] end. cbn [bind].
    destruct (_ <? two64)%N; [|easy]. cbn [bind]. unfold uadd.
    destruct (_ <? two64)%N; [|easy]. cbn [bind]. intros [= <-].
    split; cbn [fst].
    - now rewrite !length_upd.
    - destruct (Nat.eq_dec (n - S j) (S j)) as [->|Hne].
      + apply nth_upd. rewrite length_upd. lia.
      + rewrite nth_upd_ne by easy. apply nth_upd. lia.
  Qed.

  Lemma pascal_loop_ok k : forall j st st',
    (2 * (j + k) <= n)%nat -> okrow j st -> pascal_loop n (seq (S j) k) st = Ok st' ->
    okrow (j + k) st'.
  Proof.
    induction k as [|k IH]; intros j st st' Hk Hj; cbn [seq pascal_loop].
    - intros [= <-]. now rewrite Nat.add_0_r.
    - destruct (pascal_step n st (S j)) as [st1|] eqn:E; [|easy]. cbn [bind]. intros E2.
      replace (j + S k)%nat with (S j + k)%nat by lia. apply (IH (S j) st1 st'); [lia| |easy].
      eapply pascal_step_ok; [|eassumption|eassumption]. lia.
  Qed.
End Loop.

Lemma pascal_loop_app n a b st :
  pascal_loop n (a ++ b) st = let* st' := pascal_loop n a st in pascal_loop n b st'.
Proof.
  revert st; induction a as [|i a IH]; intros st; cbn [app pascal_loop bind]; [easy|].
  destruct (pascal_step n st i); cbn [bind]; [apply IH|easy].
Qed.

Lemma binom_63_31 : binom 63 31 = 916312070471295267.
Proof. rewrite <- nth_prow. vm_compute. reflexivity. Qed.
Lemma binom_n_31 n : (63 <= n)%nat -> 916312070471295267 <= binom n 31.
Proof. intros H. rewrite <- binom_63_31. now apply binom_mono_r. Qed.

(** From window 64 on, the row no longer fits in [usize]. *)
Lemma pascal_row_big w : (64 <= w)%nat -> pascal_row w = Panic.
Proof.
  intros H. unfold pascal_row, usub. destruct (Nat.leb_spec 1 w); [|lia]. cbn [bind].
  set (n := (w - 1)%nat).
  assert (Hn : (31 <= n / 2)%nat) by (apply Nat.div_le_lower_bound; lia).
  replace (seq 1 (n / 2)) with (seq 1 30 ++ seq 31 (n / 2 - 30)).
  2:{ change 31%nat with (1 + 30)%nat. rewrite <- (seq_app 30 (n / 2 - 30) 1). f_equal. lia. }
  rewrite pascal_loop_app.
  destruct (pascal_loop n (seq 1 30) _) as [[row d]|] eqn:E; [|easy]. cbn [bind].
  apply pascal_loop_ok in E.
  - destruct E as [L E]. cbn [fst Nat.add] in E, L.
    replace (n / 2 - 30)%nat with (S (n / 2 - 31)) by lia. cbn [seq pascal_loop].
    unfold pascal_step at 1, usub, idx. cbn [Nat.leb bind]. replace (31 - 1)%nat with 30%nat by lia.
    rewrite E. cbn [bind]. destruct (Nat.leb_spec 30 n); [|lia]. cbn [bind]. unfold umul.
    rewrite (binom_absorb n 30) by lia.
    pose proof (binom_n_31 n ltac:(lia)) as B.
    destruct (N.ltb_spec (binom n 31 * N.of_nat 31) two64) as [C|C]; [|easy].
    exfalso. unfold two64 in C. lia.
  - assert (n / 2 * 2 <= n)%nat by (rewrite Nat.mul_comm; apply Nat.mul_div_le; lia). lia.
  - split; cbn [fst].
    + rewrite repeat_length. lia.
    + destruct w; [lia|]. cbn. now rewrite binom_n_0.
Qed.

Definition pascal_good (w : nat) : bool :=
  match pascal_row w with
  | Ok (row, d) =>
      (if list_eq_dec N.eq_dec row (prow (w - 1)) then true else false)
      && (d =? 2 ^ N.of_nat (w - 1))
  | Panic => false
  end.
(** Up to window 63 the weights are the binomial coefficients of row [w-1] over
    [2^(w-1)].  (All 63 windows are evaluated.) *)
Lemma pascal_row_small w : (1 <= w < 64)%nat ->
  pascal_row w = Ok (map (binom (w - 1)) (seq 0 w), 2 ^ N.of_nat (w - 1)).
Proof.
  intros H. assert (A : forallb pascal_good (seq 1 63) = true) by (vm_compute; reflexivity).
  rewrite forallb_forall in A. specialize (A w). unfold pascal_good in A.
  destruct (pascal_row w) as [[row d]|].
  - rewrite prow_binom in A. replace (S (w - 1)) with w in A by lia.
    destruct (list_eq_dec N.eq_dec row _) as [->|].
    + cbn [andb] in A. rewrite (proj1 (N.eqb_eq _ _) (A ltac:(apply in_seq; lia))). reflexivity.
    + cbn [andb] in A. discriminate A. apply in_seq; lia.
  - discriminate A. apply in_seq; lia.
Qed.

Lemma pascal_row_panic w : pascal_row w = Panic <-> (w = 0 \/ 64 <= w)%nat.
Proof.
  destruct w as [|w]; [split; [lia|easy]|].
  destruct (le_lt_dec 64 (S w)).
  - split; [lia|]. intros _. now apply pascal_row_big.
  - rewrite pascal_row_small by lia. split; [easy|lia].
Qed.

Section PWMA.
  Context {F : Type} {O : FOps F}.
  Lemma pwma_outcome (data : list F) w :
    outcome (pwma data w) (w = 0 \/ 64 <= w)%nat (Nat.max (w - 1) (length data)).
  Proof.
    unfold pwma. pose proof (pascal_row_panic w) as P.
    destruct (pascal_row w) as [[row d]|]; cbn [bind].
    - assert (~ (w = 0 \/ 64 <= w)%nat) by (rewrite <- P; easy). zap; fin.
    - left. split; [now apply P|easy].
  Qed.
  Lemma pwma_causal w (d1 d2 : list F) : prefix d1 d2 -> keeps (pwma d1 w) (pwma d2 w).
  Proof. intros. unfold pwma. ksteps. Qed.
End PWMA.
