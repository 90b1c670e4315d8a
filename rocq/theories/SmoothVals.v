(** * What the moving averages compute, operation by operation.

    Everything here holds for every arithmetic [FOps F]: in particular bit for
    bit in binary64. *)

From Verif Require Export SmoothShape Pascal.
Local Unset Implicit Arguments.

Lemma follows_scan {A B} (na init : B) (g : B -> A -> B) k (head rest l : list A) :
  l = head ++ rest -> length head = k + 1 ->
  follows (pad k na ++ init :: scan (fun s x => (g s x, g s x)) init rest) l k na init g.
Proof.
  intros -> L. split; [|split; [|split]].
  - len. lia.
  - intros i Hi. rewrite nth_error_app1 by (len; lia). now apply nth_error_pad.
  - rewrite nth_error_app2 by (len; lia). len. now replace (k - k) with 0 by lia.
  - intros i y x Hi Hy Hx. rewrite nth_error_app2 in Hy |- * by (len; lia). len.
    rewrite nth_error_app2 in Hx by lia.
    replace (S i - length head) with (i - k) in Hx by lia.
    replace (S i - k) with (S (i - k)) by lia. remember (i - k) as j. clear - Hy Hx.
    cbn [nth_error] in *. destruct j as [|j].
    + cbn in Hy. injection Hy as <-. destruct rest; cbn in *; [easy|]. now injection Hx as ->.
    + cbn in Hy. now apply (@scan_recurrence B A g init rest j x y).
Qed.

Lemma follows_aligned {A B} (o : list B) (l : list A) k na init g :
  follows o l k na init g ->
  aligned o (length l) k na (fun i => fold_left g (range (k + 1) (i + 1) l) init).
Proof.
  intros (L & W & I & R).
  assert (K : k < length o) by (apply nth_error_Some; congruence).
  split; [lia|split; [easy|]]. intros i [H1 H2].
  unfold range. replace (i + 1 - (k + 1)) with (i - k) by lia.
  replace i with (k + (i - k)) at 1 by lia. assert (Hj : k + (i - k) < length l) by lia.
  remember (i - k) as j. clear i Heqj H1 H2. induction j as [|j IH].
  - cbn. now rewrite Nat.add_0_r.
  - specialize (IH ltac:(lia)).
    destruct (@nth_error_is_Some A l (S (k + j)) ltac:(lia)) as [x Hx].
    rewrite <- Nat.add_succ_comm. cbn [Nat.add]. erewrite R; [|lia|exact IH|exact Hx].
    f_equal. change (g (fold_left g (firstn j (skipn (k + 1) l)) init) x)
      with (fold_left g [x] (fold_left g (firstn j (skipn (k + 1) l)) init)).
    rewrite <- fold_left_app. f_equal. clear - Hx. replace (S (k + j)) with (k + 1 + j) in Hx by lia.
    rewrite <- nth_error_skipn in Hx. revert Hx. generalize (skipn (k + 1) l). intros m.
    revert j. induction m as [|a m IHm]; intros [|j] H; cbn in *; try easy.
    + now injection H as ->.
    + f_equal. now apply IHm.
Qed.

Section Vals.
  Context {F : Type} {O : FOps F}.
  Local Open Scope F_scope.
  Implicit Types (data : list F) (w : nat).

  Lemma sma_values data w : 0 < w ->
    exists o, sma data w = Ok o /\
    aligned o (length data) (w - 1) fnan (fun i => fold_left fadd (win w data i) fsum0 / fofnat w).
  Proof.
    intros Hw. unfold sma. zap. eexists; split; [reflexivity|].
    apply (@aligned_windows F F fnan (sma_win w) data w Hw).
  Qed.

  Lemma ewma_values data w : 0 < w <= length data ->
    exists o, ewma data w = Ok o /\
    follows o data (w - 1) fnan (fold_left fadd (firstn w data) fsum0 / fofnat w)
      (fun prev x => x * (#2 / fofnat (w + 1)) + prev * (#1 - #2 / fofnat (w + 1))).
  Proof.
    intros Hw. unfold ewma. zap. eexists; split; [reflexivity|].
    apply (follows_scan fnan (fsum (firstn w data) / fofnat w)
       (fun s x => x * (#2 / fofnat (w + 1)) + s * (#1 - #2 / fofnat (w + 1)))
       (w - 1) (firstn w data)); [now rewrite firstn_skipn | len; lia].
  Qed.

  (** [wilder]: bar [w-1] is already a recursive update, of the mean of the
      [w-1] bars before it. *)
  Lemma wilder_values data w : 2 <= w <= length data ->
    exists o x, wilder data w = Ok o /\ nth_error data (w - 1) = Some x /\
    follows o data (w - 1) fnan
      ((fold_left fadd (firstn (w - 1) data) fsum0 / fofnat (w - 1) * fofnat (w - 1) + x) / fofnat w)
      (fun prev x => (prev * fofnat (w - 1) + x) / fofnat w).
  Proof.
    intros Hw. unfold wilder. zap.
    destruct (skipn (w - 1) data) as [|x rest] eqn:E.
    { exfalso. assert (length (skipn (w - 1) data) = 0) by now rewrite E. len. lia. }
    eexists _, x; split; [reflexivity|]. split.
    { replace (w - 1)%nat with (w - 1 + 0)%nat by lia. rewrite <- nth_error_skipn. now rewrite E. }
    apply (follows_scan fnan _ (fun s x => (s * fofnat (w - 1) + x) / fofnat w)
             (w - 1) (firstn (w - 1) data ++ [x])); [|len; lia].
    rewrite <- app_assoc. cbn. rewrite <- E. now rewrite firstn_skipn.
  Qed.
  (** The weighted window sum shared by [wma], [pwma] and [fwma]. *)
  Definition wdot (weights x : list F) : F :=
    fold_left fadd (map (fun '(v, c) => v * c) (combine x weights)) fsum0.

  Lemma wma_weights_val w ws : wma_weights w = Ok ws ->
    ws = map (fun k => fofnat k / (fofN (N.of_nat w * N.of_nat w + N.of_nat w) / #2)) (seq 1 w).
  Proof.
    unfold wma_weights, umul, uadd, two64. intros E.
    destruct (N.of_nat w * N.of_nat w <? 2 ^ 64)%N; cbn [bind] in E; [|easy].
    destruct (N.of_nat w * N.of_nat w + N.of_nat w <? 2 ^ 64)%N; cbn [bind] in E; [|easy].
    now injection E as <-.
  Qed.
  Lemma wma_values data w : (0 < w)%nat -> (N.of_nat w < 2 ^ 32)%N ->
    exists o, wma data w = Ok o /\
    aligned o (length data) (w - 1) fnan
      (fun i => wdot (map (fun k => fofnat k / (fofN (N.of_nat w * N.of_nat w + N.of_nat w) / #2))
                          (seq 1 w)) (win w data i)).
  Proof.
    intros Hw Hb. unfold wma. destruct (wma_weights_outcome w) as [[B _]|[_ (ws & E & _)]];
      [now apply N.lt_nge in Hb|]. rewrite E. cbn [bind]. apply wma_weights_val in E. rewrite <- E.
    clear E Hb. zap. eexists; split; [reflexivity|].
    apply (@aligned_windows F F fnan (dot _) data w Hw).
  Qed.

  Lemma pwma_values data w : (0 < w < 64)%nat ->
    exists o, pwma data w = Ok o /\
    aligned o (length data) (w - 1) fnan
      (fun i => wdot (map (fun k => fofN (binom (w - 1) k) / fofN (2 ^ N.of_nat (w - 1))%N)
                          (seq 0 w)) (win w data i)).
  Proof.
    intros Hw. unfold pwma. rewrite pascal_row_small by lia. cbn [bind].
    zap. eexists; split; [reflexivity|]. rewrite map_map.
    apply (@aligned_windows F F fnan (dot _) data w). lia.
  Qed.

  Lemma fwma_values data w : (2 <= w)%nat ->
    exists o, fwma data w = Ok o /\
    aligned o (length data) (w - 1) fnan (fun i => wdot (fib_weights (w - 2)) (win w data i)).
  Proof.
    intros Hw. unfold fwma. zap. eexists; split; [reflexivity|].
    apply (@aligned_windows F F fnan (dot _) data w). lia.
  Qed.

  Lemma wilder_values_1 data : wilder data 1 = Ok data.
  Proof. reflexivity. Qed.
End Vals.
