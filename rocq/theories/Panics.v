(** * Panics: what remained of the panic domains, lengths and causality.

    Quantiles, ranks and rank correlations on arbitrary binary64 data (NaN
    included), the displaced lines and the regression errors. *)

From Coq Require Import Reals Lra Lia Permutation.
From Flocq Require Import Core IEEE754.BinarySingleNaN.
From Verif Require Import Tac Smooth Distribution Regression Correlation Trend Momentum DistShape SmoothShape TrendShape MomShape Prings Rank RankCorr B64 F64Err Warm.
Local Unset Implicit Arguments.

(** ** Binary64 data without NaN can be compared *)
Definition val (x : f64) : R :=
  match x with
  | B754_infinity s => if s then (- bpow radix2 1024)%R else bpow radix2 1024
  | _ => B2R x
  end.
Lemma val_bound (x : f64) : is_finite x = true -> (Rabs (val x) < bpow radix2 1024)%R.
Proof. intros H. destruct x; try discriminate; apply (abs_B2R_lt_emax 53 1024). Qed.
Lemma val_compare (x y : f64) : is_nan x = false -> is_nan y = false -> Bcompare x y = Some (Rcompare (val x) (val y)).
Proof.
  intros Nx Ny. pose proof (bpow_gt_0 radix2 1024) as P.
  assert (FF : is_finite x = true -> is_finite y = true -> Bcompare x y = Some (Rcompare (val x) (val y))).
  { intros Fx Fy. rewrite (Bcompare_correct 53 1024 x y Fx Fy). destruct x, y; try discriminate; reflexivity. }
  destruct (is_finite x) eqn:Fx, (is_finite y) eqn:Fy; [now apply FF| | |].
  - pose proof (val_bound x Fx) as B. apply Rabs_def2 in B. destruct y as [|s| |]; try discriminate. cbn [val].
    destruct s; [rewrite Rcompare_Gt by lra|rewrite Rcompare_Lt by lra]; destruct x as [[]| | |[] ? ? ?]; try discriminate; reflexivity.
  - pose proof (val_bound y Fy) as B. apply Rabs_def2 in B. destruct x as [|s| |]; try discriminate. cbn [val].
    destruct s; [rewrite Rcompare_Lt by lra|rewrite Rcompare_Gt by lra]; destruct y as [[]| | |[] ? ? ?]; try discriminate; reflexivity.
  - destruct x as [|s| |], y as [|t| |]; try discriminate. cbn [val].
    destruct s, t; [rewrite Rcompare_Eq|rewrite Rcompare_Lt|rewrite Rcompare_Gt|rewrite Rcompare_Eq]; try lra; reflexivity.
Qed.
Lemma ltb_val (x y : f64) : is_nan x = false -> is_nan y = false -> Bltb x y = match Rcompare (val x) (val y) with Lt => true | _ => false end.
Proof. intros Nx Ny. change (Bltb x y) with (match Bcompare x y with Some Lt => true | _ => false end). now rewrite val_compare. Qed.
Lemma eqb_val (x y : f64) : is_nan x = false -> is_nan y = false -> Beqb x y = match Rcompare (val x) (val y) with Eq => true | _ => false end.
Proof. intros Nx Ny. change (Beqb x y) with (match Bcompare x y with Some Eq => true | _ => false end). now rewrite val_compare. Qed.
Theorem comparable_f64 (m : libm) (l : list f64) : (forall x, In x l -> is_nan x = false) -> @comparable f64 (B64 m) l.
Proof.
  intros N. split; [exact N|]. change (@fltb f64 (B64 m)) with (@Bltb 53 1024). change (@feqb f64 (B64 m)) with (@Beqb 53 1024).
  repeat split.
  - intros x y Hx Hy. rewrite !ltb_val by auto. destruct (Rcompare_spec (val x) (val y)), (Rcompare_spec (val y) (val x)); try easy; lra.
  - intros x y z Hx Hy Hz. rewrite !ltb_val by auto.
    destruct (Rcompare_spec (val y) (val x)), (Rcompare_spec (val z) (val y)), (Rcompare_spec (val z) (val x)); try easy; lra.
  - intros x y Hx Hy. rewrite !ltb_val, eqb_val by auto.
    destruct (Rcompare_spec (val x) (val y)), (Rcompare_spec (val y) (val x)); try easy; lra.
Qed.

(** ** Quantiles *)
Theorem quantile_f64_outcome (m : libm) (data : list f64) w q : (Z.of_nat w <= 2 ^ 53)%Z ->
  outcome (@quantile f64 (B64 m) data w q) (w = 0)%nat (Nat.max (w - 1) (length data)).
Proof.
  intros Hz. destruct (Nat.eq_dec w 0) as [->|Hw]; [now left|]. right. split; [easy|].
  destruct (quantile_f64_total m data w q ltac:(lia) Hz) as (o & E & L). exists o. split; [easy|]. lia.
Qed.
Theorem median_f64_outcome (m : libm) (data : list f64) w : (Z.of_nat w <= 2 ^ 53)%Z ->
  outcome (@median f64 (B64 m) data w) (w = 0)%nat (Nat.max (w - 1) (length data)).
Proof. apply quantile_f64_outcome. Qed.

(** ** Ranks *)
Local Open Scope nat_scope.
Section RankPanics.
  Context {F : Type} {FO : FOps F}.
  Variable srt : sort_oracle F.
  (** The sort is correct on data that can be compared, and a single item needs
      no comparison. *)
  Hypothesis Sr : forall l : list F, comparable l -> sorts (srt l) l.
  Hypothesis S1 : forall x, srt [x] = [0].
  Hypothesis S0 : srt [] = [].

  Lemma rank_single x mode : exists y, rank srt [x] mode = Ok [y].
  Proof.
    unfold rank, argsort. cbn [length Nat.leb andb]. rewrite S1. cbn [bind].
    destruct mode as [[]|]; cbn; eexists; reflexivity.
  Qed.
  Lemma rank_nan (data : list F) mode : 2 <= length data -> existsb fisnan data = true -> rank srt data mode = Panic.
  Proof. intros L E. unfold rank, argsort. rewrite (proj2 (Nat.leb_le _ _) L), E. reflexivity. Qed.
  (** On comparable data [rank] returns one rank per item. *)
  Lemma rank_total (data : list F) mode : comparable data -> data <> [] -> (mode = Some RDense -> (N.of_nat (length data) < 2 ^ 31)%N) ->
    exists o, rank srt data mode = Ok o /\ length o = length data.
  Proof.
    intros C Hn Hb. pose proof (Sr data C) as S. destruct mode as [[]|].
    - rewrite (rank_average srt data C S Hn). eexists. split; [reflexivity|]. apply map_length.
    - destruct (rank_dense srt data C S Hn (Hb eq_refl)) as (k & E & _). rewrite E. eexists. split; [reflexivity|]. apply map_length.
    - rewrite (rank_max srt data C S Hn). eexists. split; [reflexivity|]. apply map_length.
    - rewrite (proj1 (rank_min srt data C S Hn)). eexists. split; [reflexivity|]. apply map_length.
    - destruct (rank_ordinal srt data C S) as (pos & E & P & _). rewrite E. eexists. split; [reflexivity|].
      rewrite map_length. apply Permutation_length in P. now rewrite seq_length in P.
    - destruct (rank_min srt data C S Hn) as [E ->]. rewrite E. eexists. split; [reflexivity|]. apply map_length.
  Qed.
End RankPanics.

(** The panic domain of [rank] on arbitrary binary64 data: two items or more with a
    NaN among them, or no item at all. *)
Theorem rank_f64_outcome (m : libm) (srt : sort_oracle f64) (data : list f64) mode :
  (forall l, @comparable f64 (B64 m) l -> @sorts f64 (B64 m) (srt l) l) -> (forall x, srt [x] = [0]) -> srt [] = [] ->
  (mode = Some RDense -> (N.of_nat (length data) < 2 ^ 31)%N) ->
  outcome (@rank f64 (B64 m) srt data mode)
    ((2 <= length data /\ exists x, In x data /\ is_nan x = true) \/ (data = [] /\ mode <> Some ROrdinal)) (length data).
Proof.
  intros Sr S1 S0 Hb. destruct data as [|x [|y data]].
  - destruct mode as [[]|]; try (left; split; [right; easy|]; unfold rank, argsort; cbn; now rewrite S0).
    right. split; [intros [[H _]|[_ H]]; [cbn in H; lia|easy]|]. unfold rank, argsort. cbn. eexists. split; [reflexivity|easy].
  - right. split; [intros [[H _]|[H _]]; [cbn in H; lia|easy]|]. destruct (@rank_single f64 (B64 m) srt S1 x mode) as (z & E). exists [z]. easy.
  - set (l := x :: y :: data) in *. destruct (existsb (@fisnan f64 (B64 m)) l) eqn:E.
    + left. split; [left; split; [cbn; lia|]; apply existsb_exists in E as (z & Hz & Ez); now exists z|].
      apply rank_nan; [cbn; lia|easy].
    + right. assert (N : forall z, In z l -> is_nan z = false).
      { intros z Hz. destruct (is_nan z) eqn:Ez; [|easy]. exfalso. apply Bool.not_true_iff_false in E. apply E. apply existsb_exists. now exists z. }
      split. { intros [[_ (z & Hz & Ez)]|[H _]]; [rewrite N in Ez; easy|easy]. }
      apply (@rank_total f64 (B64 m)); [easy|now apply comparable_f64|easy|easy].
Qed.

(** ** Rank correlations on arbitrary binary64 data *)
Definition has_nan (l : list f64) : Prop := exists x, In x l /\ is_nan x = true.

Lemma nan_window (a b : list f64) w i x : 0 < w -> w <= Nat.min (length a) (length b) -> i < Nat.min (length a) (length b) ->
  (nth_error a i = Some x \/ nth_error b i = Some x) -> exists e, w - 1 <= e < Nat.min (length a) (length b) /\
    (In x (win w a e) \/ In x (win w b e)).
Proof.
  intros Hw Hl Hi H. exists (Nat.max i (w - 1)). split; [lia|].
  assert (G : forall l, i < length l -> w <= length l -> nth_error l i = Some x -> In x (win w l (Nat.max i (w - 1)))).
  { intros l L1 L2 E. apply nth_error_In with (i - (Nat.max i (w - 1) + 1 - w)). rewrite nth_error_win by lia.
    now replace (Nat.max i (w - 1) + 1 - w + (i - (Nat.max i (w - 1) + 1 - w))) with i by lia. }
  destruct H; [left|right]; apply G; auto; lia.
Qed.
Lemma has_nan_win (a : list f64) w e : w - 1 <= e -> e < length a -> 0 < w -> has_nan (win w a e) -> exists i x, i <= e /\ nth_error a i = Some x /\ is_nan x = true.
Proof.
  intros H1 H2 Hw (x & Hx & N). apply In_nth_error in Hx as [t Ht].
  assert (t < w). { assert (t < length (win w a e)) by (apply nth_error_Some; congruence). rewrite length_win in H by lia. lia. }
  rewrite nth_error_win in Ht by lia. exists (e + 1 - w + t), x. repeat split; auto. lia.
Qed.
Lemma zipwin_outcome {A B C} (f : list A * list B -> result C) (P : list A -> list B -> Prop) (x : C) a b w : 0 < w ->
  (forall u v, length u = w -> length v = w -> (f (u, v) = Panic <-> P u v)) ->
  outcome (let* vs := rmap f (combine (windows w a) (windows w b)) in Ok (pad (w - 1) x ++ vs))
    (exists e, w - 1 <= e < Nat.min (length a) (length b) /\ P (win w a e) (win w b e))
    (Nat.max (w - 1) (Nat.min (length a) (length b))).
Proof.
  intros Hw HP.
  assert (R : outcome (rmap f (combine (windows w a) (windows w b)))
    (exists e, w - 1 <= e < Nat.min (length a) (length b) /\ P (win w a e) (win w b e)) (length (combine (windows w a) (windows w b)))).
  { apply rmap_outcome. split.
    - intros ([u v] & Hp & E). apply In_nth_error in Hp as [k Hk]. 
      assert (K : k < length (combine (windows w a) (windows w b))) by (apply nth_error_Some; congruence).
      rewrite combine_length, !length_windows in K. rewrite nth_error_combine in Hk.
      pose proof (@nth_error_windows_win _ w a (k + (w - 1)) Hw ltac:(lia)) as W1.
      pose proof (@nth_error_windows_win _ w b (k + (w - 1)) Hw ltac:(lia)) as W2.
      rewrite Nat.add_sub in W1, W2. rewrite W1, W2 in Hk. injection Hk as <- <-.
      exists (k + (w - 1)). split; [lia|]. apply HP; [apply length_win; lia|apply length_win; lia|easy].
    - intros (e & He & HPe). exists (win w a e, win w b e). split.
      + apply nth_error_In with (e - (w - 1)). rewrite nth_error_combine, !nth_error_windows_win by lia. reflexivity.
      + apply HP; [apply length_win; lia|apply length_win; lia|easy]. }
  destruct R as [[B' ->]|[B' (o & -> & L)]]; cbn [bind]; [now left|right]. split; [easy|]. eexists. split; [reflexivity|].
  rewrite app_length, length_pad, L, combine_length, !length_windows. lia.
Qed.

(** Somewhere in the common part of the two series there is a NaN. *)
Definition nan_bar (a b : list f64) : Prop :=
  exists i x, i < Nat.min (length a) (length b) /\ (nth_error a i = Some x \/ nth_error b i = Some x) /\ is_nan x = true.
Lemma nan_bar_windows a b w : 0 < w -> w <= Nat.min (length a) (length b) ->
  (nan_bar a b <-> exists e, w - 1 <= e < Nat.min (length a) (length b) /\ (has_nan (win w a e) \/ has_nan (win w b e))).
Proof.
  intros Hw Hl. split.
  - intros (i & x & Hi & Hx & N). destruct (nan_window a b w i x Hw Hl Hi Hx) as (e & He & [H|H]); exists e; split; auto; [left|right]; now exists x.
  - intros (e & He & [H|H]); apply has_nan_win in H as (i & x & Hi & Hx & N); try lia; exists i, x; repeat split; auto; lia.
Qed.

Section RankCorrF64.
  Variable m : libm.
  Variable srt : sort_oracle f64.
  Hypothesis Sr : forall l, @comparable f64 (B64 m) l -> @sorts f64 (B64 m) (srt l) l.
  Hypothesis S1 : forall x, srt [x] = [0].
  Hypothesis S0 : srt [] = [].

  Lemma rank_f64_ok x mode : x <> [] -> (mode = Some RDense -> (N.of_nat (length x) < 2 ^ 31)%N) -> ~ (2 <= length x /\ has_nan x) ->
    exists o, @rank f64 (B64 m) srt x mode = Ok o /\ length o = length x.
  Proof.
    intros Hx Hd N. destruct (rank_f64_outcome m srt x mode Sr S1 S0 Hd) as [[[B|B] _]|[_ H]]; [easy|easy|exact H].
  Qed.
  Lemma rank_f64_panic x mode : 2 <= length x -> has_nan x -> @rank f64 (B64 m) srt x mode = Panic.
  Proof. intros L (y & Hy & N). apply rank_nan; [easy|]. apply existsb_exists. now exists y. Qed.
  Lemma has_nan_dec (l : list f64) : has_nan l \/ ~ has_nan l.
  Proof.
    destruct (existsb is_nan l) eqn:E; [left|right].
    - apply existsb_exists in E. exact E.
    - intros H. apply Bool.not_true_iff_false in E. apply E. now apply existsb_exists.
  Qed.
  Lemma srcc_win_f64 w u v : 0 < w -> length u = w -> length v = w ->
    (@srcc_win f64 (B64 m) srt (u, v) = Panic <-> 2 <= w /\ (has_nan u \/ has_nan v)).
  Proof.
    intros Hw Lu Lv. unfold srcc_win. cbn [fst snd].
    assert (Nu : u <> []) by (intros ->; cbn in *; lia). assert (Nv : v <> []) by (intros ->; cbn in *; lia).
    destruct (le_lt_dec 2 w) as [W|W].
    - destruct (has_nan_dec u) as [Hu|Hu]; [rewrite rank_f64_panic by (auto; lia); cbn; tauto|].
      destruct (rank_f64_ok u None Nu ltac:(easy) ltac:(tauto)) as (ru & -> & L1). cbn [bind].
      destruct (has_nan_dec v) as [Hv|Hv]; [rewrite rank_f64_panic by (auto; lia); cbn; tauto|].
      destruct (rank_f64_ok v None Nv ltac:(easy) ltac:(tauto)) as (rv & -> & L2). cbn [bind].
      unfold cov_stdev, usub. rewrite !(proj2 (Nat.leb_le _ _)) by lia. cbn. split; [easy|tauto].
    - destruct (rank_f64_ok u None Nu ltac:(easy) ltac:(lia)) as (ru & -> & L1). cbn [bind].
      destruct (rank_f64_ok v None Nv ltac:(easy) ltac:(lia)) as (rv & -> & L2). cbn [bind].
      unfold cov_stdev, usub. rewrite !(proj2 (Nat.leb_le _ _)) by lia. cbn. split; [easy|lia].
  Qed.
  (** [srcc] panics on window 0, and on windows of two bars or more as soon as
      one of them sees a NaN. *)
  Theorem srcc_f64_outcome a b w :
    outcome (@srcc f64 (B64 m) srt a b w)
      (w = 0 \/ (2 <= w <= Nat.min (length a) (length b) /\ nan_bar a b))
      (Nat.max (w - 1) (Nat.min (length a) (length b))).
  Proof.
    unfold srcc. destruct (Nat.eq_dec w 0) as [->|W]; [left; split; [now left|easy]|].
    unfold usub. rewrite (proj2 (Nat.leb_le 1 w)) by lia. cbn [bind]. rewrite zip_windows_val by lia. cbn [bind].
    eapply outcome_iff; [|reflexivity|apply (zipwin_outcome _ (fun u v => 2 <= w /\ (has_nan u \/ has_nan v))); [lia|]].
    - apply iff_sym. split.
      + intros [|[[H1 H2] H3]]; [easy|]. apply (nan_bar_windows a b w) in H3 as (e & He & H3); [|lia|lia]. exists e. easy.
      + intros (e & He & H1 & H2). right. split; [lia|]. apply (nan_bar_windows a b w); [lia|lia|]. now exists e.
    - intros u v Lu Lv. apply srcc_win_f64; lia.
  Qed.
  Lemma hoeffd_win_f64 w u v : 0 < w -> length u = w -> length v = w ->
    (@hoeffd_win f64 (B64 m) srt w (u, v) = Panic <-> (2 <= w /\ (has_nan u \/ has_nan v)) \/ w < 4 \/
      (two64 <= N.of_nat w * N.of_nat (w - 1) * N.of_nat (w - 2) * N.of_nat (w - 3) * N.of_nat (w - 4))%N).
  Proof.
    intros Hw Lu Lv. assert (Nu : u <> []) by (intros ->; cbn in *; lia). assert (Nv : v <> []) by (intros ->; cbn in *; lia).
    destruct (has_nan_dec u) as [Hu|Hu].
    { destruct (le_lt_dec 2 w) as [W|W].
      - unfold hoeffd_win. cbn [fst snd]. rewrite rank_f64_panic by (auto; lia). cbn. tauto.
      - split; [intros _; right; left; lia|intros _]. unfold hoeffd_win. cbn [fst snd].
        destruct (rank_f64_ok u (Some RAverage) Nu ltac:(easy) ltac:(lia)) as (ru & -> & L1). cbn [bind].
        destruct (rank_f64_ok v (Some RAverage) Nv ltac:(easy) ltac:(lia)) as (rv & -> & L2). cbn [bind].
        destruct (hoeffd_sums _ _ _) as [[d1 d2] d3]. replace w with 1 by lia. reflexivity. }
    destruct (has_nan_dec v) as [Hv|Hv].
    { destruct (le_lt_dec 2 w) as [W|W].
      - unfold hoeffd_win. cbn [fst snd].
        destruct (rank_f64_ok u (Some RAverage) Nu ltac:(easy) ltac:(tauto)) as (ru & -> & L1). cbn [bind].
        rewrite rank_f64_panic by (auto; lia). cbn. tauto.
      - split; [intros _; right; left; lia|intros _]. unfold hoeffd_win. cbn [fst snd].
        destruct (rank_f64_ok u (Some RAverage) Nu ltac:(easy) ltac:(lia)) as (ru & -> & L1). cbn [bind].
        destruct (rank_f64_ok v (Some RAverage) Nv ltac:(easy) ltac:(lia)) as (rv & -> & L2). cbn [bind].
        destruct (hoeffd_sums _ _ _) as [[d1 d2] d3]. replace w with 1 by lia. reflexivity. }
    assert (C : forall l, ~ has_nan l -> @comparable f64 (B64 m) l).
    { intros l Hl. apply comparable_f64. intros x Hx. destruct (is_nan x) eqn:E; [|easy]. exfalso. apply Hl. now exists x. }
    rewrite (@hoeffd_win_panic f64 (B64 m) srt Sr w u v (C u Hu) (C v Hv) Lu Lv Hw). tauto.
  Qed.
  Theorem hoeffd_f64_outcome a b w :
    outcome (@hoeffd f64 (B64 m) srt a b w)
      (w = 0 \/ (w <= Nat.min (length a) (length b) /\ (nan_bar a b \/ w < 4 \/
        (two64 <= N.of_nat w * N.of_nat (w - 1) * N.of_nat (w - 2) * N.of_nat (w - 3) * N.of_nat (w - 4))%N)))
      (Nat.max (w - 1) (Nat.min (length a) (length b))).
  Proof.
    unfold hoeffd. destruct (Nat.eq_dec w 0) as [->|W]; [left; split; [now left|easy]|].
    unfold usub. rewrite (proj2 (Nat.leb_le 1 w)) by lia. cbn [bind]. rewrite zip_windows_val by lia. cbn [bind].
    set (big := (two64 <= _)%N).
    eapply outcome_iff; [|reflexivity|apply (zipwin_outcome _ (fun u v => (2 <= w /\ (has_nan u \/ has_nan v)) \/ w < 4 \/ big)); [lia|]].
    - apply iff_sym. split.
      + intros [|[H1 [H3|H3]]]; [easy| |exists (w - 1); split; [lia|now right]].
        destruct (le_lt_dec w 3) as [L|L]; [exists (w - 1); split; [lia|right; left; lia]|].
        apply (nan_bar_windows a b w) in H3 as (e & He & H3); [|lia|lia]. exists e. split; [easy|]. left. split; [lia|easy].
      + intros (e & He & [[H1 H2]|H]); right; (split; [lia|]); [left|now right]. apply (nan_bar_windows a b w); [lia|lia|]. now exists e.
    - intros u v Lu Lv. apply hoeffd_win_f64; lia.
  Qed.
End RankCorrF64.

(** ** Causality of the remaining functions *)
Section Causality.
  Context {F : Type} {FO : FOps F}.
  Local Open Scope F_scope.
  Local Open Scope nat_scope.

  Lemma obs_est_prefix (d1 d2 e1 e2 : list F) : prefix d1 d2 -> prefix e1 e2 -> prefix (obs_est d1 e1) (obs_est d2 e2).
  Proof. intros P Q. unfold obs_est. apply prefix_combine; [now apply prefix_enumerate|easy]. Qed.
  Theorem mse_causal (d1 d2 e1 e2 : list F) : prefix d1 d2 -> prefix e1 e2 -> prefix (mse d1 e1) (mse d2 e2).
  Proof. intros. now apply prefix_scan, obs_est_prefix. Qed.
  Theorem rmse_causal (d1 d2 e1 e2 : list F) : prefix d1 d2 -> prefix e1 e2 -> prefix (rmse d1 e1) (rmse d2 e2).
  Proof. intros. now apply prefix_scan, obs_est_prefix. Qed.
  Theorem mae_causal (d1 d2 e1 e2 : list F) : prefix d1 d2 -> prefix e1 e2 -> prefix (mae d1 e1) (mae d2 e2).
  Proof. intros. now apply prefix_scan, obs_est_prefix. Qed.
  Theorem mape_causal (d1 d2 e1 e2 : list F) : prefix d1 d2 -> prefix e1 e2 -> prefix (mape d1 e1) (mape d2 e2).
  Proof. intros. now apply prefix_scan, obs_est_prefix. Qed.
  Theorem smape_causal (d1 d2 e1 e2 : list F) : prefix d1 d2 -> prefix e1 e2 -> prefix (smape d1 e1) (smape d2 e2).
  Proof. intros. now apply prefix_scan, obs_est_prefix. Qed.

  (** [kst] with windows of the caller's: when it returns on both series. *)
  Theorem kst_causal d1 d2 rocs wins o1 o2 : prefix d1 d2 -> kst d1 rocs wins = Ok o1 -> kst d2 rocs wins = Ok o2 ->
    (forall r p m, In (r, p, m) (@kst_terms F FO rocs wins) -> 0 < p) -> prefix o1 o2.
  Proof.
    intros P E1 E2 Hp. pose proof (prefix_length P) as L.
    destruct (kst_spec d1 rocs wins) as [[_ E]|[_ (o & E & A)]]; [congruence|]. assert (o = o1) as -> by congruence.
    destruct (kst_spec d2 rocs wins) as [[_ E']|[_ (o' & E' & A')]]; [congruence|]. assert (o' = o2) as -> by congruence.
    eapply aligned_prefix; [exact A|exact A'|easy|]. intros i Hi. symmetry. apply prings_val_prefix; [easy|lia|exact Hp].
  Qed.

  (** The displaced lines: the items up to the last bar plus the smallest
      displacement never change. *)
  Lemma displaced_causal d1 d2 w off mo k o1 : prefix d1 d2 -> displaced d1 w off mo = Ok o1 -> k <= length d1 + off ->
    exists o2, displaced d2 w off mo = Ok o2 /\ prefix (firstn k o1) o2.
  Proof.
    intros P. unfold displaced. pose proof (wilder_outcome d1 w) as W1. destruct (wilder d1 w) as [v1|] eqn:E1; [|easy]. cbn [bind].
    intros E Hk. apply Warm.Ok_inj in E. subst o1.
    destruct (wilder_causal w d1 d2 P v1 E1) as (v2 & -> & [c ->]). cbn [bind].
    eexists. split; [reflexivity|].
    assert (L : length v1 = length d1) by (destruct W1 as [[_ ?]|[_ (o & [= <-] & ?)]]; [easy|easy]).
    rewrite app_assoc, firstn_app, app_length, length_pad.
    replace (k - (off + length v1)) with 0 by lia. cbn [firstn]. rewrite app_nil_r.
    exists (skipn k (pad off fnan ++ v1) ++ c ++ pad (mo - off) fnan). rewrite <- !app_assoc.
    rewrite !app_assoc. rewrite firstn_skipn. now rewrite <- !app_assoc.
  Qed.
  Lemma prefix_firstn_combine {A B} k (a a' : list A) (b b' : list B) : prefix (firstn k a) a' -> prefix (firstn k b) b' ->
    prefix (firstn k (combine a b)) (combine a' b').
  Proof. intros. rewrite combine_firstn. now apply prefix_combine. Qed.
  Theorem alligator_causal d1 d2 jw jo tw to lw lo o1 : prefix d1 d2 -> alligator d1 jw jo tw to lw lo = Ok o1 ->
    exists o2, alligator d2 jw jo tw to lw lo = Ok o2 /\
      prefix (firstn (length d1 + Nat.min (Nat.min jo to) lo) o1) o2.
  Proof.
    intros P. unfold alligator. cbv zeta. set (mo := Nat.max (Nat.max jo to) lo). set (k := length d1 + _).
    destruct (displaced d1 jw jo mo) as [a|] eqn:E1; [|easy]. destruct (displaced d1 tw to mo) as [b|] eqn:E2; [|easy].
    destruct (displaced d1 lw lo mo) as [c|] eqn:E3; [|easy]. cbn [bind]. intros [= <-].
    destruct (displaced_causal d1 d2 jw jo mo k a P E1 ltac:(lia)) as (a' & -> & Pa).
    destruct (displaced_causal d1 d2 tw to mo k b P E2 ltac:(lia)) as (b' & -> & Pb).
    destruct (displaced_causal d1 d2 lw lo mo k c P E3 ltac:(lia)) as (c' & -> & Pc). cbn [bind].
    eexists. split; [reflexivity|]. unfold zip3. now repeat apply prefix_firstn_combine.
  Qed.
  Theorem gator_causal d1 d2 jw jo tw to lw lo o1 : prefix d1 d2 -> gator d1 jw jo tw to lw lo = Ok o1 ->
    exists o2, gator d2 jw jo tw to lw lo = Ok o2 /\
      prefix (firstn (length d1 + Nat.min (Nat.min jo to) lo) o1) o2.
  Proof.
    intros P. unfold gator. destruct (alligator d1 jw jo tw to lw lo) as [a|] eqn:E; [|easy]. cbn [bind]. intros [= <-].
    destruct (alligator_causal d1 d2 jw jo tw to lw lo a P E) as (b & -> & Q). cbn [bind]. eexists. split; [reflexivity|].
    rewrite firstn_map. now apply prefix_map.
  Qed.

  (** [ichimoku]: every line but the last, which shows a later close. *)
  Definition four (x : F * F * F * F * F) : F * F * F * F := fst x.
  Lemma midpoints_prefix h1 h2 l1 l2 w v1 v2 : prefix h1 h2 -> prefix l1 l2 -> midpoints h1 l1 w = Ok v1 -> midpoints h2 l2 w = Ok v2 -> prefix v1 v2.
  Proof. intros P Q E1 E2. destruct (midpoints_causal w h1 h2 l1 l2 P Q v1 E1) as (v & E & Pv). congruence. Qed.
  Lemma prefix_same {A} (a b : list A) i x y : prefix a b -> i < length a -> nth_error a i = Some x -> nth_error b i = Some y -> x = y.
  Proof. intros [c ->] H. rewrite nth_error_app1 by easy. congruence. Qed.
  Theorem ichimoku_causal h1 h2 l1 l2 c1 c2 cw bw lw lag o1 o2 : prefix h1 h2 -> prefix l1 l2 ->
    ichimoku h1 l1 c1 cw bw lw lag = Ok o1 -> ichimoku h2 l2 c2 cw bw lw lag = Ok o2 ->
    forall i x y, i < Nat.min (length h1) (length l1) -> nth_error o1 i = Some x -> nth_error o2 i = Some y -> four x = four y.
  Proof.
    intros P Q. unfold ichimoku.
    pose proof (midpoints_outcome h1 l1 cw) as LA. pose proof (midpoints_outcome h1 l1 bw) as LB. pose proof (midpoints_outcome h1 l1 lw) as LC.
    destruct (usub cw 1) as [kc|] eqn:Ec; [|easy]. destruct (usub bw 1) as [kb|] eqn:Eb; [|destruct (midpoints h1 l1 cw); easy]. destruct (usub lw 1) as [kl|] eqn:El; [|destruct (midpoints h1 l1 cw), (midpoints h1 l1 bw); easy].
    cbn [bind].
    destruct (midpoints h1 l1 cw) as [a1|] eqn:A1; [|easy]. destruct (midpoints h2 l2 cw) as [a2|] eqn:A2; [|intros _; easy].
    destruct (midpoints h1 l1 bw) as [b1|] eqn:B1; [|easy]. destruct (midpoints h2 l2 bw) as [b2|] eqn:B2; [|intros _; easy].
    destruct (midpoints h1 l1 lw) as [g1|] eqn:G1; [|easy]. destruct (midpoints h2 l2 lw) as [g2|] eqn:G2; [|intros _; easy]. cbn [bind].
    apply Warm.usub_k in Ec, Eb, El. destruct Ec as [-> Ec], Eb as [-> Eb], El as [-> El].
    pose proof (midpoints_prefix _ _ _ _ _ _ _ P Q A1 A2) as PA. pose proof (midpoints_prefix _ _ _ _ _ _ _ P Q B1 B2) as PB. pose proof (midpoints_prefix _ _ _ _ _ _ _ P Q G1 G2) as PG.
    assert (LA' : length a1 = Nat.min (length h1) (length l1) + 1 - cw) by (destruct LA as [[_ ?]|[_ (o & [= <-] & ?)]]; easy).
    assert (LB' : length b1 = Nat.min (length h1) (length l1) + 1 - bw) by (destruct LB as [[_ ?]|[_ (o & [= <-] & ?)]]; easy).
    assert (LC' : length g1 = Nat.min (length h1) (length l1) + 1 - lw) by (destruct LC as [[_ ?]|[_ (o & [= <-] & ?)]]; easy).
    intros [= <-] [= <-] i x y Hi. unfold zip5, zip4, zip3.
    assert (G : forall (u1 u2 : list F) n q1 q2 v w', prefix u1 u2 -> length u1 = n -> i < n -> nth_error (u1 ++ q1) i = Some v -> nth_error (u2 ++ q2) i = Some w' -> v = w').
    { intros u1 u2 n q1 q2 v w' [c ->] <- Hn. rewrite <- app_assoc, !nth_error_app1 by easy. congruence. }
    rewrite !nth_error_combine.
    destruct (nth_error ((pad (cw - 1) fnan ++ a1) ++ _) i) as [x1|] eqn:X1; [|easy].
    destruct (nth_error ((pad (bw - 1) fnan ++ b1) ++ _) i) as [x2|] eqn:X2; [|easy].
    match goal with |- context [nth_error (pad bw fnan ++ map ?g (combine (pad (cw - 1) fnan ++ a1) ?q)) i] =>
      destruct (nth_error (pad bw fnan ++ map g (combine (pad (cw - 1) fnan ++ a1) q)) i) as [x3|] eqn:X3; [|easy] end.
    destruct (nth_error (pad (lw - 1 + bw) fnan ++ g1) i) as [x4|] eqn:X4; [|easy].
    destruct (nth_error (skipn lag c1 ++ _) i) as [x5|]; [|easy].
    destruct (nth_error ((pad (cw - 1) fnan ++ a2) ++ _) i) as [y1|] eqn:Y1; [|easy].
    destruct (nth_error ((pad (bw - 1) fnan ++ b2) ++ _) i) as [y2|] eqn:Y2; [|easy].
    match goal with |- context [nth_error (pad bw fnan ++ map ?g (combine (pad (cw - 1) fnan ++ a2) ?q)) i] =>
      destruct (nth_error (pad bw fnan ++ map g (combine (pad (cw - 1) fnan ++ a2) q)) i) as [y3|] eqn:Y3; [|easy] end.
    destruct (nth_error (pad (lw - 1 + bw) fnan ++ g2) i) as [y4|] eqn:Y4; [|easy].
    destruct (nth_error (skipn lag c2 ++ _) i) as [y5|]; [|easy].
    intros [= <-] [= <-]. unfold four. cbn [fst].
    assert (H1 : x1 = y1) by (eapply (G (pad (cw - 1) fnan ++ a1)); [apply prefix_app_l, PA|reflexivity|rewrite app_length, length_pad; lia|eassumption|eassumption]).
    assert (H2 : x2 = y2) by (eapply (G (pad (bw - 1) fnan ++ b1)); [apply prefix_app_l, PB|reflexivity|rewrite app_length, length_pad; lia|eassumption|eassumption]).
    assert (H3 : x3 = y3).
    { eapply prefix_same; [|apply nth_error_Some; rewrite X3; discriminate|exact X3|exact Y3].
      apply prefix_app_l, prefix_map, prefix_combine; apply prefix_app_l; assumption. }
    assert (H4 : x4 = y4).
    { eapply prefix_same; [|apply nth_error_Some; rewrite X4; discriminate|exact X4|exact Y4]. apply prefix_app_l, PG. }
    congruence.
  Qed.
End Causality.
