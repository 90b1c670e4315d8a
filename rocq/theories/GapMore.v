(** * GapMore: a missing bar in oscillators, volume indicators and error
    measures that never recover from it.  Vocabulary: Gap.v. *)

From Coq Require Import Reals Lra Lia.
From Verif Require Import NaN Bars Volume Volatility Trend Momentum Regression Gap.
Local Unset Implicit Arguments.

(** Bar [p] of one of the series is missing. *)
Definition missing_in {F} {FO : FOps F} (p : nat) (series : list (list F)) : Prop := exists s, In s series /\ missing p s.

Section GapMore.
  Context {F : Type} {FO : FOps F} {N : FNan FO}.
  Local Open Scope F_scope.

  Lemma fsignum_nan : fsignum (fnan : F) = fnan.
  Proof. unfold fsignum. now rewrite isnan_nan. Qed.

  Lemma pairs_nth (data : list F) i a b : nth_error (pairs data) i = Some (a, b) -> nth_error data i = Some a /\ nth_error data (S i) = Some b.
  Proof. unfold pairs. intros E. apply combine_nth in E as [Ea Eb]. rewrite nth_error_skipn in Eb. easy. Qed.
  Lemma hole_pairs (f : F * F -> F) data p : (forall x, f (fnan, x) = fnan) -> (forall x, f (x, fnan) = fnan) -> missing p data -> hole (p - 1) (map f (pairs data)).
  Proof.
    intros F1 F2 H. apply hole_map. intros [a b] E. apply pairs_nth in E as [Ea Eb]. unfold missing in H. destruct p as [|p].
    - change (0 - 1)%nat with 0%nat in Ea. assert (a = fnan) as -> by congruence. apply F1.
    - replace (S (S p - 1)) with (S p) in Eb by lia. assert (b = fnan) as -> by congruence. apply F2.
  Qed.

  (** ** Oscillators *)

  Theorem macd_gap close short long o p : missing p close -> macd close short long = Ok o -> lost_from p o.
  Proof. intros H E. unfold macd in E. inv E. apply lost_2l; [intros y; now nans|]. eapply ewma_gap; eauto. Qed.
  Theorem ppo_gap data short long o p : missing p data -> ppo data short long = Ok o -> lost_from p o.
  Proof. intros H E. unfold ppo in E. inv E. apply lost_2l; [intros y; now nans|]. eapply ewma_gap; eauto. Qed.
  Theorem apo_gap data short long o p : missing p data -> apo data short long = Ok o -> lost_from p o.
  Proof. intros H E. unfold apo in E. inv E. apply lost_2l; [intros y; now nans|]. eapply ewma_gap; eauto. Qed.
  Theorem disparity_gap data w o p : missing p data -> disparity data w = Ok o -> lost_from p o.
  Proof. intros H E. unfold disparity in E. inv E. apply lost_2r; [intros y; now nans|]. eapply ewma_gap; eauto. Qed.
  Theorem trix_gap close w o p : missing p close -> trix close w = Ok o -> lost_from p o.
  Proof.
    intros H E. unfold trix in E. inv E. apply lost_pad.
    pose proof (ewma_lost _ _ _ _ (lost_skip _ _ _ (ewma_lost _ _ _ _ (lost_skip _ (w - 1) _ (ewma_gap _ _ _ _ H Q)) Q0)) Q1) as L.
    apply lost_2r; [intros y; now nans|]. apply (lost_le _ _ _ (lost_skip _ 1 _ L)); lia.
  Qed.
  Theorem tsi_gap data short long o p : missing p data -> tsi data short long = Ok o -> lost_from p o.
  Proof.
    intros H E. unfold tsi in E. inv E. apply lost_pad. apply lost_2l; [intros y; now nans|].
    assert (K : hole (p - 1) (map (fun '(a, b) => b - a) (pairs data))) by (apply hole_pairs; try easy; intros; now nans).
    eapply lost_le; [exact (ewma_lost _ _ _ _ (lost_skip _ _ _ (ewma_hole _ _ _ _ K Q)) Q0)|lia].
  Qed.
  Theorem pmo_gap data w1 w2 o p : missing p data -> pmo data w1 w2 = Ok o -> lost_from p o.
  Proof.
    intros H E. unfold pmo in E. inv E. apply lost_pad.
    assert (K : hole (p - 1) (map (fun '(a, b) => #1000 * (b / a - #1)) (pairs data))) by (apply hole_pairs; try easy; intros; now nans).
    eapply lost_le; [exact (ewma_lost _ _ _ _ (lost_skip _ _ _ (ewma_hole _ _ _ _ K Q)) Q0)|lia].
  Qed.
  Theorem qstick_gap open close w o p : missing_in p [open; close] -> qstick open close w = Ok o -> lost_from p o.
  Proof.
    intros (s & I & H) E. unfold qstick in E. eapply ewma_hole; [|exact E]. apply missing_hole in H.
    destruct I as [<- |[<- |[]]]; [apply hole_2r|apply hole_2l]; try easy; intros; now nans.
  Qed.
  Theorem bal_power_gap open high low close w o p : missing_in p [open; high; low; close] -> bal_power open high low close w = Ok o -> lost_from p o.
  Proof.
    intros (s & I & H) E. unfold bal_power in E. eapply ewma_hole; [|exact E]. apply hole_map. intros [[[x h] l] c] K. apply zip4_nth in K as (K1 & K2 & K3 & K4).
    unfold missing in H. destruct I as [<- |[<- |[<- |[<- |[]]]]]; [replace x with (@fnan F FO) by congruence|replace h with (@fnan F FO) by congruence|replace l with (@fnan F FO) by congruence|replace c with (@fnan F FO) by congruence]; now nans.
  Qed.
  Theorem elder_ray_gap high low close w o p : missing p close -> elder_ray high low close w = Ok o -> lost_from p (map fst o) /\ lost_from p (map snd o).
  Proof.
    intros H E. unfold elder_ray in E. inv E. pose proof (ewma_gap _ _ _ _ H Q) as L.
    split; rewrite map_map; apply lost_map; intros i [[h l] c] Hi K; apply zip3_nth in K as (_ & _ & K); rewrite (L i c Hi K); cbn [fst snd]; now nans.
  Qed.
  Theorem keltner_gap high low close w o p : missing p close -> keltner high low close w = Ok o ->
    lost_from p (map (fun '(mid, _, _) => mid) o) /\ lost_from p (map (fun '(_, up, _) => up) o) /\ lost_from p (map (fun '(_, _, lo) => lo) o).
  Proof.
    intros H E. unfold keltner in E. inv E. pose proof (ewma_gap _ _ _ _ H Q) as L.
    repeat split; rewrite map_map; apply lost_map; intros i [mid t] Hi K; apply combine_nth in K as (K & _); rewrite (L i mid Hi K); now nans.
  Qed.
  (** [stc]: the stochastic of a lost window is lost. *)
  Lemma stc_raw_lost series w sm o p : sm <> 1%nat -> lost_from p series -> stc_raw series w sm = Ok o -> lost_from (p - (w - 1)) o.
  Proof.
    intros Hs L E. unfold stc_raw in E. inv E. eapply wilder_hole; [exact Hs| |exact E]. apply hole_map. intros x Ex.
    pose proof (nth_error_Some' _ _ _ Ex) as B. rewrite length_windows in B. rewrite nth_error_windows in Ex by lia. apply some_inj in Ex as ->.
    unfold stc_win. replace (last_ (firstn w (skipn (p - (w - 1)) series))) with (@fnan F FO); [now nans|].
    unfold last_. rewrite firstn_length, skipn_length. symmetry. destruct (@nth_error_is_Some _ series (p - (w - 1) + (w - 1))) as [y Ey]; [lia|].
    apply nth_error_nth. rewrite nth_error_firstn by lia. rewrite nth_error_skipn. replace (Nat.min w (length series - (p - (w - 1))) - 1)%nat with (w - 1)%nat by lia.
    rewrite Ey. f_equal. apply (L _ y) in Ey; [easy|lia].
  Qed.
  Theorem stc_gap close w short long o p : missing p close -> stc close w short long = Ok o -> lost_from p o.
  Proof.
    intros H E. unfold stc in E. inv E. apply lost_pad. pose proof (macd_gap _ _ _ _ _ H Q) as L.
    pose proof (stc_raw_lost _ _ 2 _ _ ltac:(easy) (lost_skip _ (long - 1) _ L) Q0) as L1.
    pose proof (stc_raw_lost _ _ 2 _ _ ltac:(easy) (lost_skip _ 1 _ L1) Q1) as L2.
    eapply lost_le; [exact (lost_skip _ 1 _ L2)|lia].
  Qed.
  (** A bar with neither high nor low has no true range. *)
  Theorem atr_gap high low close w o p : w <> 1%nat -> (1 <= p)%nat -> missing p high -> missing p low -> atr high low close w = Ok o -> lost_from p o.
  Proof.
    intros Hw Hp Hh Hl E. unfold atr in E. inv E. apply lost_cons. eapply wilder_hole; [exact Hw| |eassumption]. unfold true_range in Q. inv Q. apply hole_map.
    intros [[h l] c] K. apply zip3_nth in K as (Kh & Kl & _). rewrite nth_error_skipn in Kh. rewrite nth_error_skipn in Kl. replace (1 + (p - 1))%nat with p in * by lia. unfold missing in Hh, Hl.
    replace h with (@fnan F FO) by congruence. replace l with (@fnan F FO) by congruence. unfold tr_bar. nans. now rewrite !fmax_nan_l.
  Qed.

  (** ** Volume *)

  Lemma steps3_nth (close volume : list F) st i a b v : steps3 close volume = Ok st -> nth_error st i = Some (a, b, v) ->
    nth_error close i = Some a /\ nth_error close (S i) = Some b /\ nth_error volume (S i) = Some v.
  Proof.
    intros E K. unfold steps3 in E. inv E. pose proof (nth_error_Some' _ _ _ K) as L. apply zip3_nth in K as (Ka & Kb & Kv). rewrite nth_error_skipn in Kb. rewrite nth_error_skipn in Kv.
    assert (B : (i < length close - 1)%nat) by (apply nth_error_Some' in Kb; cbn in Kb; lia). rewrite nth_error_firstn in Ka by easy. easy.
  Qed.
  Theorem elder_force_gap close volume w o p : (1 <= p)%nat -> missing_in p [close; volume] -> elder_force close volume w = Ok o -> lost_from p o.
  Proof.
    intros Hp (s & I & H) E. unfold elder_force in E. inv E. apply lost_cons. eapply ewma_hole; [|eassumption]. apply hole_map. intros [[x y] v] K.
    destruct (steps3_nth _ _ _ _ _ _ _ Q K) as (_ & Ky & Kv). replace (S (p - 1)) with p in * by lia. unfold missing in H.
    destruct I as [<- |[<- |[]]]; [replace y with (@fnan F FO) by congruence|replace v with (@fnan F FO) by congruence]; now nans.
  Qed.
  Theorem vpt_gap data volume o p : (1 <= p)%nat -> missing_in p [data; volume] -> vpt data volume = Ok o -> lost_from p o.
  Proof.
    intros Hp (s & I & H) E. unfold vpt in E. inv E. apply lost_cons. apply (scan_kill _ is_nan).
    - intros t [x v] ->. unfold vpt_step, is_nan. cbn [fst snd]. now nans.
    - intros [x v] t K. apply combine_nth in K as (Kx & Kv). rewrite nth_error_skipn in Kv. replace (1 + (p - 1))%nat with p in Kv by lia.
      unfold vpt_step, is_nan. cbn [fst snd]. unfold missing in H. destruct I as [<- |[<- |[]]]; [|replace v with (@fnan F FO) by congruence; now nans].
      replace (at_ x 1) with (@fnan F FO); [now nans|]. pose proof (nth_error_Some' _ _ _ Kx) as B. rewrite length_windows in B. rewrite nth_error_windows in Kx by lia. apply some_inj in Kx as ->.
      unfold at_. symmetry. apply nth_error_nth. rewrite nth_error_firstn by lia. rewrite nth_error_skipn. replace (p - 1 + 1)%nat with p by lia. exact H.
  Qed.
  Theorem tvi_gap close volume tick o p : (1 <= p)%nat -> missing p volume -> tvi close volume tick = Ok o -> lost_from p o.
  Proof.
    intros Hp H E. unfold tvi in E. inv E. apply lost_cons. apply (scan_kill _ (fun st => snd st = fnan)).
    - intros [d acc] [[x y] v]. cbn [snd]. intros ->. unfold tvi_step. cbn [fst snd]. now nans.
    - intros [[x y] v] [d acc] K. destruct (steps3_nth _ _ _ _ _ _ _ Q K) as (_ & _ & Kv). replace (S (p - 1)) with p in * by lia. unfold missing in H.
      replace v with (@fnan F FO) by congruence. unfold tvi_step. cbn [fst snd]. now nans.
  Qed.
  Theorem ad_gap high low close volume o p : missing_in p [high; low; close; volume] -> ad high low close volume None = Ok o -> lost_from p o.
  Proof.
    intros (s & I & H) E. cbn in E. apply gap_ok in E as ->. apply (scan_kill _ is_nan).
    - intros t [[[h l] c] v] ->. unfold ad_step, is_nan. cbn [fst snd]. now nans.
    - intros [[[h l] c] v] t K. apply zip4_nth in K as (K1 & K2 & K3 & K4). unfold missing in H. unfold ad_step, is_nan.
      destruct I as [<- |[<- |[<- |[<- |[]]]]]; [replace h with (@fnan F FO) by congruence|replace l with (@fnan F FO) by congruence|replace c with (@fnan F FO) by congruence|replace v with (@fnan F FO) by congruence]; cbn [fst snd]; now nans.
  Qed.
  Lemma tail4_nth (high low close volume : list F) bars i h l c v : tail4 high low close volume = Ok bars -> nth_error bars i = Some (h, l, c, v) ->
    nth_error high (S i) = Some h /\ nth_error low (S i) = Some l /\ nth_error close (S i) = Some c /\ nth_error volume (S i) = Some v.
  Proof. intros E K. unfold tail4 in E. inv E. apply zip4_nth in K as (K1 & K2 & K3 & K4). rewrite nth_error_skipn in K1. rewrite nth_error_skipn in K2. rewrite nth_error_skipn in K3. rewrite nth_error_skipn in K4. easy. Qed.
  Theorem ad_alt_gap high low close volume o p : (1 <= p)%nat -> missing_in p [close; volume] -> ad high low close volume (Some true) = Ok o -> lost_from p o.
  Proof.
    intros Hp (s & I & H) E. cbn [ad unwrap_or negb] in E. inv E. apply lost_cons. apply (scan_kill _ (fun st => snd st = fnan)).
    - intros [s0 s1] [[[h l] c] v]. cbn [snd]. intros ->. unfold ad_alt_step. cbn [fst snd]. now nans.
    - intros [[[h l] c] v] [s0 s1] K. destruct (tail4_nth _ _ _ _ _ _ _ _ _ _ Q K) as (_ & _ & Kc & Kv). replace (S (p - 1)) with p in * by lia. unfold missing in H. unfold ad_alt_step.
      destruct I as [<- |[<- |[]]]; [replace c with (@fnan F FO) by congruence|replace v with (@fnan F FO) by congruence]; cbn [fst snd]; [|now nans].
      unfold fgtb. nans. easy.
  Qed.
  Lemma scan_step {S A B} (g : S -> A -> S * B) l st i x : nth_error (scan g st l) i = Some x -> exists st' b, nth_error l i = Some b /\ x = snd (g st' b).
  Proof.
    revert st i. induction l as [|b l IH]; intros st i E; [destruct i; easy|]. cbn [scan] in E. destruct (g st b) as [st1 z] eqn:Ez.
    destruct i as [|i]; cbn [nth_error] in E; [exists st, b; rewrite Ez; split; [easy|]; cbn; congruence|]. exact (IH st1 i E).
  Qed.
  Theorem kvo_gap high low close volume short long alt o p : (1 <= p)%nat -> missing_in p [high; low; close; volume] -> kvo high low close volume short long alt = Ok o -> lost_from p o.
  Proof.
    intros Hp (s & I & H) E. unfold kvo in E. inv E. apply lost_cons. apply lost_2l; [intros y; now nans|]. eapply ewma_hole; [|eassumption].
    unfold missing in H. destruct (unwrap_or alt true).
    - unfold vforce_alt in Q. inv Q. intros x Ex.
      destruct (scan_step _ _ _ _ _ Ex) as ([[s0 s1] s2] & [[[h l] c] v] & Kb & ->). match goal with T : tail4 _ _ _ _ = Ok _ |- _ => destruct (tail4_nth _ _ _ _ _ _ _ _ _ _ T Kb) as (K1 & K2 & K3 & K4) end.
      replace (S (p - 1)) with p in * by lia. unfold vforce_alt_step. cbn [snd].
      destruct I as [<- |[<- |[<- |[<- |[]]]]]; [replace h with (@fnan F FO) by congruence|replace l with (@fnan F FO) by congruence|replace c with (@fnan F FO) by congruence|replace v with (@fnan F FO) by congruence]; nans; rewrite ?fsignum_nan; now nans.
    - unfold vforce in Q. inv Q. intros x Ex.
      destruct (scan_step _ _ _ _ _ Ex) as ([[[[[s0 s1] s2] s3] s4] s5] & [[[h l] c] v] & Kb & ->). match goal with T : tail4 _ _ _ _ = Ok _ |- _ => destruct (tail4_nth _ _ _ _ _ _ _ _ _ _ T Kb) as (K1 & K2 & K3 & K4) end.
      replace (S (p - 1)) with p in * by lia. unfold vforce_step. cbn [snd].
      destruct I as [<- |[<- |[<- |[<- |[]]]]]; [replace h with (@fnan F FO) by congruence|replace l with (@fnan F FO) by congruence|replace c with (@fnan F FO) by congruence|replace v with (@fnan F FO) by congruence]; nans; rewrite ?fsignum_nan; now nans.
  Qed.

  Lemma rscan_kill {S A} (step : S -> A -> result (S * F)) (dead : S -> Prop) :
    (forall s a s' b, dead s -> step s a = Ok (s', b) -> dead s' /\ b = fnan) ->
    forall l p s o, (forall a s s' b, nth_error l p = Some a -> step s a = Ok (s', b) -> dead s' /\ b = fnan) -> rscan step s l = Ok o -> lost_from p o.
  Proof.
    intros H.
    assert (D : forall l s o, dead s -> rscan step s l = Ok o -> lost_from 0 o).
    { induction l as [|a l IH]; intros s o Hs E; cbn [rscan] in E; [apply gap_ok in E as ->; intros [|i] x; easy|].
      apply gap_bind in E as ([s' b] & E1 & E). apply gap_bind in E as (r & E2 & E). apply gap_ok in E as ->. destruct (H _ _ _ _ Hs E1) as [Hs' ->].
      intros [|i] x _ K; cbn [nth_error] in K; [congruence|]. exact (IH s' r Hs' E2 i x (Nat.le_0_l i) K). }
    induction l as [|a l IH]; intros p s o K E; cbn [rscan] in E; [apply gap_ok in E as ->; intros [|i] x; easy|].
    apply gap_bind in E as ([s' b] & E1 & E). apply gap_bind in E as (r & E2 & E). apply gap_ok in E as ->. destruct p as [|p].
    - destruct (K a s s' b eq_refl E1) as [Hs' ->]. intros [|i] x _ G; cbn [nth_error] in G; [congruence|]. exact (D l s' r Hs' E2 i x (Nat.le_0_l i) G).
    - intros [|i] x Hi G; [lia|]. cbn [nth_error] in G. apply (IH p s' r (fun a s => K a s) E2 i x); [lia|easy].
  Qed.
  Lemma enumerate_nth {A} (l : list A) i j x : nth_error (enumerate l) i = Some (j, x) -> j = i /\ nth_error l i = Some x.
  Proof.
    unfold enumerate. intros E. apply combine_nth in E as [E1 E2]. split; [|easy]. pose proof (nth_error_Some' _ _ _ E2) as L. rewrite nth_error_seq in E1 by easy. cbn in E1. congruence.
  Qed.
  Theorem obv_gap close volume o p : (1 <= p)%nat -> missing_in p [close; volume] -> obv close volume = Ok o -> lost_from p o.
  Proof.
    intros Hp (t & I & H) E. unfold obv in E. inv E. apply lost_cons. eapply (rscan_kill _ is_nan); [| |exact Q].
    - intros s [i x] s' b -> E. unfold obv_step in E. inv E. apply pair_equal_spec in E as [-> ->]. unfold is_nan. now nans.
    - intros [i x] s s' b K E. apply enumerate_nth in K as [-> Kx]. unfold obv_step in E. inv E. apply pair_equal_spec in E as [-> ->]. unfold is_nan.
      replace (p - 1 + 1)%nat with p in Q0 by lia. unfold missing in H.
      destruct I as [<- |[<- |[]]]; [|replace a0 with (@fnan F FO) by congruence; now nans].
      replace (at_ x 1) with (@fnan F FO); [nans; rewrite fsignum_nan; now nans|]. pose proof (nth_error_Some' _ _ _ Kx) as B. rewrite length_windows in B. rewrite nth_error_windows in Kx by lia. apply some_inj in Kx as ->.
      unfold at_. symmetry. apply nth_error_nth. rewrite nth_error_firstn by lia. rewrite nth_error_skipn. replace (p - 1 + 1)%nat with p by lia. exact H.
  Qed.
  (** Without resets; a reset starts both sums afresh. *)
  Theorem vwap_gap high low close volume o p : missing_in p [high; low; close; volume] -> vwap high low close volume None = Ok o -> lost_from p o.
  Proof.
    intros (t & I & H) E. unfold vwap in E. cbn [unwrap_or] in E.
    set (n := length close) in *.
    assert (G : forall l p s o j, (j + length l <= n)%nat -> (snd s = [n]) -> ((fst (fst s) = fnan) \/ forall h l0 c v, nth_error l p = Some (h, l0, c, v) -> (h + l0 + c) / #3 * v = fnan) ->
      rscan vwap_step s (combine (seq j (length l)) l) = Ok o -> lost_from p o).
    { clear -N. induction l as [|[[[h l0] c] v] l IH]; intros p [[t0 v0] rs] o j Hj Hr Hk E; cbn [length seq combine rscan fst snd] in *; [apply gap_ok in E as ->; intros [|i] x; easy|]. subst rs.
      apply gap_bind in E as ([s' b] & E1 & E). apply gap_bind in E as (r & E2 & E). apply gap_ok in E as ->.
      unfold vwap_step in E1. inv E1. cbn in Q. apply some_inj in Q as ->. rewrite (proj2 (Nat.eqb_neq j n)) in E1 by lia. apply gap_ok in E1. apply pair_equal_spec in E1 as [-> ->].
      assert (D : (t0 = fnan \/ p = 0%nat) -> t0 + (h + l0 + c) / #3 * v = fnan).
      { intros [-> | ->]; [now nans|]. destruct Hk as [-> |Hk]; [now nans|]. rewrite (Hk h l0 c v eq_refl). now nans. }
      intros [|i] x Hi K; cbn [nth_error] in K.
      - apply some_inj in K as ->. rewrite D; [now nans|]. right. lia.
      - eapply (IH (p - 1)%nat _ r (S j) ltac:(lia)); [| |exact E2| |exact K]; [easy| |lia]. cbn [fst snd].
        destruct p as [|p]; [left; apply D; now right|]. replace (S p - 1)%nat with p by lia. destruct Hk as [-> |Hk]; [left; now nans|right; exact Hk]. }
    unfold enumerate in E. eapply G; [| | |exact E]; [|easy|].
    - unfold zip4, zip3. rewrite !combine_length. unfold n. lia.
    - right. intros h l c v K. apply zip4_nth in K as (K1 & K2 & K3 & K4). unfold missing in H.
      destruct I as [<- |[<- |[<- |[<- |[]]]]]; [replace h with (@fnan F FO) by congruence|replace l with (@fnan F FO) by congruence|replace c with (@fnan F FO) by congruence|replace v with (@fnan F FO) by congruence]; now nans.
  Qed.

  (** ** Running error measures *)

  Lemma obs_nth (d e : list F) i c x y : nth_error (obs_est d e) i = Some (c, x, y) -> nth_error d i = Some x /\ nth_error e i = Some y.
  Proof. unfold obs_est, enumerate. intros K. apply combine_nth in K as [K Ky]. apply combine_nth in K as [_ Kx]. easy. Qed.
  Lemma running_gap (g : F -> F -> F) (out : F -> nat -> F) d e p s : missing_in p [d; e] -> (forall y, g fnan y = fnan) -> (forall x, g x fnan = fnan) -> (forall c, out fnan c = fnan) ->
    lost_from p (scan (fun s '(c, x, y) => let s' := s + g x y in (s', out s' c)) s (obs_est d e)).
  Proof.
    intros (t & I & H) G1 G2 Ho. apply (scan_kill _ is_nan).
    - intros s0 [[c x] y] ->. unfold is_nan. cbn [fst snd]. nans. now rewrite Ho.
    - intros [[c x] y] s0 K. apply obs_nth in K as [Kx Ky]. unfold missing in H. unfold is_nan. cbn [fst snd].
      destruct I as [<- |[<- |[]]]; [replace x with (@fnan F FO) by congruence; rewrite G1|replace y with (@fnan F FO) by congruence; rewrite G2]; nans; now rewrite Ho.
  Qed.
  Theorem mse_gap data est p : missing_in p [data; est] -> lost_from p (mse data est).
  Proof. intros H. apply (running_gap (fun x y => powi2 (x - y)) (fun s c => s / fofnat (c + 1))); try easy; intros; unfold powi2; now nans. Qed.
  Theorem rmse_gap data est p : missing_in p [data; est] -> lost_from p (rmse data est).
  Proof. intros H. apply (running_gap (fun x y => powi2 (x - y)) (fun s c => fsqrt (s / fofnat (c + 1)))); try easy; intros; unfold powi2; now nans. Qed.
  Theorem mae_gap data est p : missing_in p [data; est] -> lost_from p (mae data est).
  Proof. intros H. apply (running_gap (fun x y => fabs (x - y)) (fun s c => s / fofnat (c + 1))); try easy; intros; now nans. Qed.
  Theorem mape_gap data est p : missing_in p [data; est] -> lost_from p (mape data est).
  Proof. intros H. apply (running_gap (fun x y => fabs ((x - y) / x)) (fun s c => #100 * s / fofnat (c + 1))); try easy; intros; now nans. Qed.
  Theorem mase_gap data est o p : missing_in p [data; est] -> mase data est = Ok o -> lost_from p o.
  Proof.
    intros H E. unfold mase in E. inv E. apply lost_cons. apply lost_2l; [intros y; now nans|]. apply lost_skip. now apply mae_gap.
  Qed.
  Theorem emae_gap data est o p : missing_in p [data; est] -> emae data est = Ok o -> lost_from p o.
  Proof.
    intros (t & I & H) E. unfold emae in E. inv E. unfold zip_i32 in Q. destruct (_ <? _)%N; [|easy]. apply gap_ok in Q as ->. apply (scan_kill _ (fun st => fst st = fnan)).
    - intros [s0 s1] [[x y] n]. cbn [fst snd]. intros ->. now nans.
    - intros [[x y] n] [s0 s1] K. apply combine_nth in K as [K _]. apply combine_nth in K as [Kx Ky]. unfold missing in H. cbn [fst snd].
      destruct I as [<- |[<- |[]]]; [replace x with (@fnan F FO) by congruence|replace y with (@fnan F FO) by congruence]; now nans.
  Qed.
End GapMore.
