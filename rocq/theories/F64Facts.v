(** * F64Facts: properties of the crate that hold in binary64 itself.

    [m : libm] is arbitrary throughout: nothing here depends on [ln], [exp]... *)

From Coq Require Import Reals Lra Lia ZArith.
From Flocq Require Import Core IEEE754.BinarySingleNaN.
From Verif Require Import Spec BaseFacts Tac SmoothShape VolShape DistShape TrendShape MomShape XReal Select Bars VolumeReal VolatReal B64 F64 Momentum Trend Volume Volatility.
Local Unset Implicit Arguments.
Local Open Scope R_scope.
(** So that a [m : libm] in the context is used for the operations. *)
Existing Class libm.

Lemma nn_zero s : nn (B754_zero s). Proof. now destruct s. Qed.
Lemma lit1 m n : @flit f64 (B64 m) n 1 = b64_of_Z n. Proof. reflexivity. Qed.
Lemma nn_lit1 m z : (0 <= z)%Z -> nn (@flit f64 (B64 m) z 1).
Proof. intros H. change (flit z 1) with (b64_of_Z z). destruct (Z.eq_dec z 0) as [-> |]; [easy|]. apply pos_nn, of_Z_pos. lia. Qed.
Lemma pos_nat m n : (0 < n)%nat -> Bltb (B754_zero false) (@fofnat f64 (B64 m) n) = true.
Proof. intros H. apply of_Z_pos. lia. Qed.
Lemma nn_nat m n : nn (@fofnat f64 (B64 m) n).
Proof. destruct n; [easy|]. apply pos_nn, pos_nat. lia. Qed.
Lemma nn_fold {A} (f : f64 -> A -> f64) l : forall a, nn a -> (forall a x, In x l -> nn a -> nn (f a x)) -> nn (fold_left f l a).
Proof.
  induction l as [|x l IH]; intros a Ha H; cbn; [easy|]. apply IH; [apply H; [now left|easy]|]. intros; apply H; [now right|easy].
Qed.
Lemma nn_fsum m l : (forall x, In x l -> nn x) -> nn (@fsum f64 (B64 m) l).
Proof. intros H. unfold fsum. apply nn_fold; [apply nn_zero|]. intros a x Hx Ha. apply nn_add; [easy|now apply H]. Qed.
Lemma nn_dev2 m mu l : nn (@sum_dev2 f64 (B64 m) mu l).
Proof. unfold sum_dev2. apply nn_fold; [easy|]. intros a x _ Ha. apply nn_add; [easy|]. apply nn_sq. Qed.
Lemma in_pad {A} k (a x : A) : In x (pad k a) -> x = a.
Proof. apply repeat_spec. Qed.

(** ** Spread statistics are never negative (C20) *)
Theorem variance_f64_nonneg m data w o : @variance f64 (B64 m) data w = Ok o -> forall x, In x o -> nn x.
Proof.
  unfold variance. intros E x Hx. destruct (usub w 1) as [k|] eqn:U; cbn [bind] in E; [|easy]. destruct (rwindows w data) as [ws|] eqn:W; cbn [bind] in E; [|easy]. injection E as <-.
  apply in_app_iff in Hx as [Hx|Hx]; [apply in_pad in Hx; now subst|]. apply in_map_iff in Hx as (v & <- & _). unfold usub in U. destruct (Nat.leb_spec 1 w); [|easy].
  apply nn_div; [apply nn_dev2|apply (pos_nat m); lia].
Qed.
Theorem std_dev_f64_nonneg m data w o : @std_dev f64 (B64 m) data w = Ok o -> forall x, In x o -> nn x.
Proof.
  unfold std_dev, std_dev_raw. intros E x Hx. destruct (usub w 1) as [k|] eqn:U; cbn [bind] in E; [|easy]. destruct (rwindows w data) as [ws|] eqn:W; cbn [bind] in E; [|easy]. injection E as <-.
  apply in_app_iff in Hx as [Hx|Hx]; [apply in_pad in Hx; now subst|]. apply in_map_iff in Hx as (v & <- & _). apply nn_sqrt.
Qed.
Theorem mad_f64_nonneg m data w o : @mad f64 (B64 m) data w = Ok o -> forall x, In x o -> nn x.
Proof.
  unfold mad. intros E x Hx. destruct (usub w 1) as [k|] eqn:U; cbn [bind] in E; [|easy]. destruct (rwindows w data) as [ws|] eqn:W; cbn [bind] in E; [|easy]. injection E as <-.
  apply in_app_iff in Hx as [Hx|Hx]; [apply in_pad in Hx; now subst|]. apply in_map_iff in Hx as (v & <- & _). unfold usub in U. destruct (Nat.leb_spec 1 w); [|easy].
  apply nn_div; [|apply (pos_nat m); lia]. apply nn_fold; [easy|]. intros a y _ Ha. apply nn_add; [easy|apply nn_abs].
Qed.

(** ** True range (C41) *)
Lemma nn_max m a b : nn a -> nn b -> nn (@fmax f64 (B64 m) a b).
Proof. intros Ha Hb. unfold fmax. destruct (fisnan a), (fisnan b), (fltb a b); easy. Qed.
Lemma max_not_less_l m a b : Bltb (@fmax f64 (B64 m) a b) a = false.
Proof.
  unfold fmax. destruct (fisnan a) eqn:Na; [|destruct (fisnan b) eqn:Nb; [apply ltb_irrefl|]].
  - destruct a; try easy. apply ltb_nan_r.
  - cbn -[Bltb]. destruct (Bltb a b) eqn:L; [|apply ltb_irrefl]. revert L. rewrite !ltb_xval. destruct (xval a) as [u|[]|], (xval b) as [v|[]|]; try easy; cbn. intros L. apply Rltb_t in L. apply Rltb_f. lra.
Qed.
Lemma not_less_trans (a b c : f64) : is_nan b = false -> Bltb a b = false -> Bltb b c = false -> Bltb a c = false.
Proof.
  rewrite isnan_xval, !ltb_xval. destruct (xval a) as [u|[]|], (xval b) as [v|[]|], (xval c) as [t|[]|]; try easy; cbn; rewrite !Rltb_f; intros; lra.
Qed.
Theorem tr_bar_f64 m h l pc : Bltb h l = false -> nn (@tr_bar f64 (B64 m) h l pc) /\ Bltb (@tr_bar f64 (B64 m) h l pc) (Bminus mode_NE h l) = false.
Proof.
  intros H. split.
  - apply nn_max; [apply nn_max; [now apply nn_sub|apply nn_abs]|apply nn_abs].
  - unfold tr_bar. cbn [fsub B64]. set (a := Bminus mode_NE h l). set (b := @fabs f64 (B64 m) _). set (c := @fabs f64 (B64 m) (Bminus mode_NE l pc)). clearbody a b c.
    destruct (is_nan (@fmax f64 (B64 m) a b)) eqn:N.
    + assert (A : is_nan a = true). { destruct (is_nan a) eqn:A; [easy|]. revert N. unfold fmax. cbn -[Bltb]. rewrite A. destruct (is_nan b) eqn:B; [now rewrite A|]. destruct (Bltb a b); now rewrite ?A, ?B. }
      destruct a; try easy. apply ltb_nan_r.
    + eapply not_less_trans; [exact N|apply max_not_less_l|apply max_not_less_l].
Qed.
(** [tr]: on bars whose high is not below their low, no output is negative nor
    less than the range of its own bar. *)
Theorem tr_f64 m (h l c : nat -> f64) n : (0 < n)%nat -> (forall k, (k < n)%nat -> Bltb (h k) (l k) = false) ->
  exists o, @tr f64 (B64 m) (series h n) (series l n) (series c n) = Ok o /\
  forall i v, nth_error o i = Some v -> nn v /\ ((0 < i)%nat -> Bltb v (Bminus mode_NE (h i) (l i)) = false).
Proof.
  intros Hn H. destruct (tr_values h l c n Hn) as (o & E & L & W & V). exists o. split; [exact E|]. intros i v Hv.
  assert (i < n)%nat by (rewrite <- (Nat.max_r 1 n) by lia; rewrite <- L; apply nth_error_Some; congruence).
  destruct i as [|i]; [rewrite W in Hv by lia; injection Hv as <-; split; [easy|lia]|]. rewrite V in Hv by lia. injection Hv as <-.
  destruct (tr_bar_f64 m (h (S i)) (l (S i)) (c (S i - 1)%nat)) as [A B]; [apply H; lia|]. split; [exact A|now intros _].
Qed.
Lemma in_scan_nn {A S} (f : S -> A -> S * f64) (P : S -> Prop) l : forall s, P s -> (forall s a, In a l -> P s -> P (fst (f s a)) /\ nn (snd (f s a))) -> forall x, In x (scan f s l) -> nn x.
Proof.
  induction l as [|a l IH]; intros s Ps H x Hx; cbn [scan] in Hx; [easy|]. destruct (f s a) as [s' b] eqn:E. destruct (H s a (or_introl eq_refl) Ps) as [H1 H2]. rewrite E in H1, H2. cbn [fst snd] in *. destruct Hx as [<-|Hx]; [easy|]. apply (IH s' H1); [|easy]. intros; apply H; [now right|easy].
Qed.
Lemma skipn_in {A} k (l : list A) x : In x (skipn k l) -> In x l.
Proof. intros H. rewrite <- (firstn_skipn k l). apply in_app_iff. now right. Qed.
Lemma firstn_in {A} k (l : list A) x : In x (firstn k l) -> In x l.
Proof. intros H. rewrite <- (firstn_skipn k l). apply in_app_iff. now left. Qed.
Theorem wilder_f64_nonneg m data w o : @wilder f64 (B64 m) data w = Ok o -> (forall x, In x data -> nn x) -> forall x, In x o -> nn x.
Proof.
  unfold wilder. intros E H x Hx. destruct (Nat.eqb_spec w 1) as [-> |N]; [injection E as <-; now apply H|]. destruct (usub w 1) as [k|] eqn:U; cbn [bind] in E; [|easy].
  unfold usub in U. destruct (Nat.leb_spec 1 w); [|easy]. injection U as <-. unfold slice_to, slice_from in E. destruct (_ <=? _)%nat; cbn [bind] in E; [|easy]. injection E as <-.
  apply in_app_iff in Hx as [Hx|Hx]; [apply in_pad in Hx; now subst|]. revert x Hx. apply (in_scan_nn _ nn).
  - apply nn_div; [apply (nn_fsum m); intros y Hy; apply H; eapply firstn_in, Hy|apply (pos_nat m); lia].
  - intros s a Ha Hs. cbn [wilder_step fst snd]. assert (nn ((s * fofnat (w - 1) + a) / fofnat w)%F); [|easy]. apply nn_div; [|apply (pos_nat m); lia]. apply nn_add; [|apply H; eapply skipn_in, Ha]. apply nn_mul; [easy|apply (nn_nat m)].
Qed.
Theorem ewma_f64_nonneg m data w o : @ewma f64 (B64 m) data w = Ok o -> (Z.of_nat w < 2 ^ 53)%Z -> (forall x, In x data -> nn x) -> forall x, In x o -> nn x.
Proof.
  unfold ewma. intros E Hw H x Hx. unfold slice_to, slice_from, usub in E. destruct (_ <=? _)%nat; cbn [bind] in E; [|easy]. destruct (Nat.leb_spec 1 w); cbn [bind] in E; [|easy]. injection E as <-.
  assert (I : nn (@fsum f64 (B64 m) (firstn w data) / fofnat w)%F) by (apply nn_div; [apply (nn_fsum m); intros y Hy; apply H; eapply firstn_in, Hy|apply (pos_nat m); lia]).
  apply in_app_iff in Hx as [Hx|[<-|Hx]]; [apply in_pad in Hx; now subst|exact I|]. revert x Hx. apply (in_scan_nn _ nn); [exact I|].
  assert (A : nn (@flit f64 (B64 m) 2 1 / fofnat (w + 1))%F) by (apply nn_div; [now apply (nn_lit1 m)|apply (pos_nat m); lia]).
  assert (B : nn (@flit f64 (B64 m) 1 1 - flit 2 1 / fofnat (w + 1))%F).
  { apply nn_sub. cbn [fdiv B64]. set (q := Bdiv _ _ _).
    assert (FQ : xval q = fl (2 / INR (w + 1))).
    { unfold q. assert (X2 : xval (b64_of_Z 2) = Fin 2) by now apply xval_of_Z. assert (XW : xval (b64_of_Z (Z.of_N (N.of_nat (w + 1)))) = Fin (INR (w + 1))) by (rewrite xval_of_Z by lia; now rewrite INR_IZR_INZ, nat_N_Z).
      apply xval_fin_inv in X2 as [X2 V2]. apply xval_fin_inv in XW as [XW VW]. change (flit 2 1) with (b64_of_Z 2). change (fofnat (w + 1)) with (b64_of_Z (Z.of_N (N.of_nat (w + 1)))). rewrite xval_div by (try easy; rewrite VW; apply not_0_INR; lia). now rewrite V2, VW. }
    apply (ltb_of _ _ 1 (2 / INR (w + 1))); [|exact FQ|].
    - change (flit 1 1) with (b64_of_Z 1). now rewrite xval_of_Z_gen.
    - assert (2 <= INR (w + 1)) by (change 2 with (INR 2); apply le_INR; lia). apply (Rmult_le_reg_r (INR (w + 1))); [lra|]. unfold Rdiv. rewrite Rmult_assoc, Rinv_l by lra. lra. }
  intros s a Ha Hs. cbn [ewma_step fst snd]. match goal with |- nn ?e /\ _ => assert (nn e); [|easy] end. apply nn_add; apply nn_mul; try easy. apply H. eapply skipn_in, Ha.
Qed.
Theorem atr_f64_nonneg m (h l c : nat -> f64) n w o : (forall k, (k < n)%nat -> Bltb (h k) (l k) = false) ->
  @atr f64 (B64 m) (series h n) (series l n) (series c n) w = Ok o -> forall x, In x o -> nn x.
Proof.
  intros H E x Hx. unfold atr in E. destruct (true_range _ _ _) as [t|] eqn:T; cbn [bind] in E; [|easy]. destruct (wilder t w) as [a|] eqn:A; cbn [bind] in E; [|easy]. injection E as <-.
  destruct Hx as [<-|Hx]; [easy|]. revert x Hx. apply (wilder_f64_nonneg m t w a A). intros y Hy.
  destruct n as [|n]; [now unfold true_range, slice_from in T; cbn in T|]. destruct (tr_f64 m h l c (S n) ltac:(lia) H) as (o & E & V). unfold tr in E. rewrite T in E. cbn [bind] in E. injection E as <-.
  apply (In_nth_error (fnan :: t)) with (x := y) in Hy as Hy' || (assert (Hy' : exists i, nth_error (fnan :: t) i = Some y) by (apply In_nth_error; now right)). destruct Hy' as [i Hi]. now apply V in Hi.
Qed.

(** ** Bands (C42) *)
Lemma spread_order x y : nn y -> Bltb (Bplus mode_NE x y) (Bminus mode_NE x y) = false.
Proof.
  intros Hy. fsplit x; fsplit y; try (rewrite ?nan_plus_l, ?nan_plus_r; apply ltb_nan_l).
  - apply (ltb_of _ _ _ _ (xval_add x y ltac:(easy) ltac:(easy)) (xval_sub x y ltac:(easy) ltac:(easy))). apply nn_fin in Hy; [|easy]. lra.
  - destruct s; [easy|]. now destruct x as [| | |].
  - destruct y as [| | |]; try easy; now destruct s.
  - now destruct s, s0.
Qed.
(** No bar has its upper band below the middle, nor the middle below the lower
    band, whatever the average in the middle. *)
Theorem bbands_f64_ordered m data w dev mode o : @bbands f64 (B64 m) data w dev mode = Ok o -> (forall d, dev = Some d -> nn d) ->
  forall u mid l, In (u, mid, l) o -> Bltb u mid = false /\ Bltb mid l = false /\ Bltb u l = false.
Proof.
  unfold bbands, vstd_dev. intros E Hd u mid l Hi. destruct (ma data w _) as [a|]; cbn [bind] in E; [|easy]. destruct (std_dev data w) as [s|] eqn:S; cbn [bind] in E; [|easy]. injection E as <-.
  apply in_map_iff in Hi as ((x & y) & [= <- <- <-] & Hi). apply in_combine_r in Hi. apply in_map_iff in Hi as (z & <- & Hz).
  assert (nn (z * unwrap_or dev #2)%F). { apply nn_mul; [eapply std_dev_f64_nonneg; [exact S|exact Hz]|]. destruct dev as [d|]; [now apply Hd|now apply (nn_lit1 m)]. }
  split; [now apply add_not_less|split; [now apply sub_not_more|now apply spread_order]].
Qed.
Theorem keltner_f64_ordered m (h l c : nat -> f64) n w o : (forall k, (k < n)%nat -> Bltb (h k) (l k) = false) ->
  @keltner f64 (B64 m) (series h n) (series l n) (series c n) w = Ok o ->
  forall mid u lo, In (mid, u, lo) o -> Bltb u mid = false /\ Bltb mid lo = false /\ Bltb u lo = false.
Proof.
  unfold keltner. intros H E mid u lo Hi. destruct (ewma _ w) as [e|]; cbn [bind] in E; [|easy]. destruct (atr _ _ _ w) as [a|] eqn:A; cbn [bind] in E; [|easy]. injection E as <-.
  apply in_map_iff in Hi as ((x & y) & [= <- <- <-] & Hi). apply in_combine_r in Hi. assert (nn (flit 2 1 * y)%F) by (apply nn_mul; [now apply (nn_lit1 m)|]; eapply atr_f64_nonneg; [exact H|exact A|exact Hi]).
  split; [now apply add_not_less|split; [now apply sub_not_more|now apply spread_order]].
Qed.
Theorem starc_f64_ordered m (h l c : nat -> f64) n w mw mult o : (forall k, (k < n)%nat -> Bltb (h k) (l k) = false) -> (forall d, mult = Some d -> nn d) ->
  @starc f64 (B64 m) (series h n) (series l n) (series c n) w mw mult = Ok o -> forall u lo, In (u, lo) o -> Bltb u lo = false.
Proof.
  unfold starc. intros H Hd E u lo Hi. destruct (atr _ _ _ w) as [a|] eqn:A; cbn [bind] in E; [|easy]. destruct (sma _ mw) as [e|]; cbn [bind] in E; [|easy]. injection E as <-.
  apply in_map_iff in Hi as ((x & y) & [= <- <-] & Hi). apply in_combine_l in Hi. apply spread_order. apply nn_mul; [|eapply atr_f64_nonneg; [exact H|exact A|exact Hi]]. destruct mult as [d|]; [now apply Hd|]. cbn [unwrap_or]. now vm_compute.
Qed.
