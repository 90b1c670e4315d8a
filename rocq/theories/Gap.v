(** * Gap: a missing bar (NaN) inside the data.

    What a user who feeds a series with holes must know: the functions of this
    file never recover from one missing bar.  Every theorem holds for binary64
    and for exact arithmetic alike (class [FNan] of NaN.v). *)

From Coq Require Import Reals Lra Lia.
From Verif Require Import NaN Bars Volume Volatility Trend Momentum Regression.
Local Unset Implicit Arguments.

(** ** The specification *)

(** Bar [p] of the series is there, and is NaN. *)
Definition missing {F} {FO : FOps F} (p : nat) (data : list F) : Prop := nth_error data p = Some fnan.
(** From bar [p] on, whatever is printed is NaN. *)
Definition lost_from {F} {FO : FOps F} (p : nat) (o : list F) : Prop :=
  forall i x, (p <= i)%nat -> nth_error o i = Some x -> x = fnan.

(** ** Reading a successful call *)

Lemma gap_bind {A B} (r : result A) (k : A -> result B) o : bind r k = Ok o -> exists a, r = Ok a /\ k a = Ok o.
Proof. destruct r; cbn; [eauto|easy]. Qed.
Lemma gap_usub a b c : usub a b = Ok c -> (b <= a)%nat /\ c = (a - b)%nat.
Proof. unfold usub. destruct (Nat.leb_spec b a); intros E; [injection E as <-; easy|easy]. Qed.
Lemma gap_rwindows {A} w (l : list A) ws : rwindows w l = Ok ws -> (0 < w)%nat /\ ws = windows w l.
Proof. unfold rwindows. destruct (Nat.eqb_spec w 0); intros E; [easy|]. injection E as <-. split; [lia|easy]. Qed.
Lemma gap_slice_from {A} (l : list A) k t : slice_from l k = Ok t -> (k <= length l)%nat /\ t = skipn k l.
Proof. unfold slice_from. destruct (Nat.leb_spec k (length l)); intros E; [injection E as <-; easy|easy]. Qed.
Lemma gap_slice_to {A} (l : list A) k t : slice_to l k = Ok t -> (k <= length l)%nat /\ t = firstn k l.
Proof. unfold slice_to. destruct (Nat.leb_spec k (length l)); intros E; [injection E as <-; easy|easy]. Qed.
Lemma gap_idx {A} (l : list A) i x : idx l i = Ok x -> nth_error l i = Some x.
Proof. unfold idx. destruct (nth_error l i); congruence. Qed.
Lemma gap_ok {A} (a b : A) : Ok a = Ok b -> b = a. Proof. congruence. Qed.
Ltac inv E :=
  repeat (match type of E with bind _ _ = Ok _ => idtac end; let a := fresh "a" in let q := fresh "Q" in apply gap_bind in E as (a & q & E);
    first [apply gap_usub in q as [? ->]|apply gap_rwindows in q as [? ->]|apply gap_slice_from in q as [? ->]|apply gap_slice_to in q as [? ->]|apply gap_idx in q|idtac]);
  match type of E with Ok _ = Ok _ => apply gap_ok in E; subst | _ => idtac end.

Lemma zip3_nth {A B C} (a : list A) (b : list B) (c : list C) i x y z : nth_error (zip3 a b c) i = Some (x, y, z) ->
  nth_error a i = Some x /\ nth_error b i = Some y /\ nth_error c i = Some z.
Proof.
  unfold zip3. rewrite !nth_error_combine. destruct (nth_error a i), (nth_error b i), (nth_error c i); intros E; try easy. injection E as -> -> ->. easy.
Qed.
Lemma zip4_nth {A B C D} (a : list A) (b : list B) (c : list C) (d : list D) i x y z t : nth_error (zip4 a b c d) i = Some (x, y, z, t) ->
  nth_error a i = Some x /\ nth_error b i = Some y /\ nth_error c i = Some z /\ nth_error d i = Some t.
Proof.
  unfold zip4. rewrite nth_error_combine. destruct (nth_error (zip3 a b c) i) as [[[x' y'] z']|] eqn:E; [|easy]. apply zip3_nth in E as (Ea & Eb & Ec).
  destruct (nth_error d i); intros E; [|easy]. injection E as -> -> -> ->. easy.
Qed.
Lemma combine_nth {A B} (a : list A) (b : list B) i x y : nth_error (combine a b) i = Some (x, y) -> nth_error a i = Some x /\ nth_error b i = Some y.
Proof. rewrite nth_error_combine. destruct (nth_error a i), (nth_error b i); intros E; try easy. injection E as -> ->. easy. Qed.
Lemma map_nth_inv {A B} (f : A -> B) l i y : nth_error (map f l) i = Some y -> exists x, nth_error l i = Some x /\ y = f x.
Proof. rewrite nth_error_map'. destruct (nth_error l i); intros E; [|easy]. injection E as <-. eauto. Qed.

Lemma nth_error_Some' {A} (l : list A) i x : nth_error l i = Some x -> (i < length l)%nat.
Proof. intros E. apply nth_error_Some. congruence. Qed.

Lemma some_inj {A} (a b : A) : Some a = Some b -> b = a. Proof. congruence. Qed.

Section Gap.
  Context {F : Type} {FO : FOps F} {N : FNan FO}.
  Local Open Scope F_scope.

  (** Bar [p], if there is one, is NaN. *)
  Definition hole (p : nat) (l : list F) : Prop := forall x, nth_error l p = Some x -> x = fnan.

  Lemma missing_hole p l : missing p l -> hole p l.
  Proof. unfold missing, hole. congruence. Qed.
  Lemma lost_hole p q l : lost_from p l -> (p <= q)%nat -> hole q l.
  Proof. intros L H x. now apply L. Qed.
  Lemma lost_le p q (l : list F) : lost_from p l -> (p <= q)%nat -> lost_from q l.
  Proof. intros L H i x Hi. apply L. lia. Qed.
  Lemma hole_skip p k l : (k <= p)%nat -> hole p l -> hole (p - k) (skipn k l).
  Proof. intros H L x. rewrite nth_error_skipn. replace (k + (p - k))%nat with p by lia. apply L. Qed.
  Lemma lost_skip p k (l : list F) : lost_from p l -> lost_from (p - k) (skipn k l).
  Proof. intros L i x Hi. rewrite nth_error_skipn. apply L. lia. Qed.
  Lemma lost_pad p k (l : list F) : lost_from (p - k) l -> lost_from p (pad k fnan ++ l).
  Proof.
    intros L i x Hi. destruct (le_lt_dec k i).
    - rewrite nth_error_app2; unfold pad; rewrite repeat_length; [|easy]. apply L. lia.
    - rewrite nth_error_app1 by (unfold pad; now rewrite repeat_length). rewrite nth_error_pad by easy. congruence.
  Qed.
  Lemma lost_cons p (l : list F) : lost_from (p - 1) l -> lost_from p (fnan :: l).
  Proof. intros L. exact (lost_pad p 1 l L). Qed.
  Lemma lost_map {A} (f : A -> F) (l : list A) p : (forall i x, (p <= i)%nat -> nth_error l i = Some x -> f x = fnan) -> lost_from p (map f l).
  Proof. intros H i y Hi E. apply map_nth_inv in E as (x & E & ->). eauto. Qed.
  Lemma hole_map {A} (f : A -> F) (l : list A) p : (forall x, nth_error l p = Some x -> f x = fnan) -> hole p (map f l).
  Proof. intros H y E. apply map_nth_inv in E as (x & E & ->). eauto. Qed.
  Lemma hole_In p w (l : list F) x : hole p l -> (p < w)%nat -> (p < length l)%nat -> x = firstn w l -> In fnan x.
  Proof.
    intros H Hw Hp ->. destruct (nth_error_is_Some Hp) as [y E]. pose proof (H y E) as ->. apply nth_error_In with p. now rewrite nth_error_firstn.
  Qed.

  (** A scan whose state dies and stays dead. *)
  Lemma scan_dead {S A} (step : S -> A -> S * F) (dead : S -> Prop) :
    (forall s a, dead s -> dead (fst (step s a)) /\ snd (step s a) = fnan) ->
    forall l s, dead s -> lost_from 0 (scan step s l).
  Proof.
    intros H. induction l as [|a l IH]; intros s Hs i x _ E; [destruct i; easy|]. cbn [scan] in E.
    destruct (H s a Hs) as [D V]. destruct (step s a) as [s' b]. cbn [fst snd] in D, V. destruct i as [|i]; cbn in E; [congruence|].
    exact (IH s' D i x (Nat.le_0_l i) E).
  Qed.
  Lemma scan_kill {S A} (step : S -> A -> S * F) (dead : S -> Prop) :
    (forall s a, dead s -> dead (fst (step s a)) /\ snd (step s a) = fnan) ->
    forall l p s, (forall a s, nth_error l p = Some a -> dead (fst (step s a)) /\ snd (step s a) = fnan) -> lost_from p (scan step s l).
  Proof.
    intros H. induction l as [|a l IH]; intros p s K i x Hi E; [destruct i; easy|]. cbn [scan] in E. destruct p as [|p].
    - destruct (K a s eq_refl) as [D V]. destruct (step s a) as [s' b]. cbn [fst snd] in D, V. destruct i as [|i]; cbn in E; [congruence|].
      exact (scan_dead step dead H l s' D i x (Nat.le_0_l i) E).
    - destruct (step s a) as [s' b]. destruct i as [|i]; [lia|]. cbn in E. apply (IH p s' (fun a s => K a s)) with i; [lia|easy].
  Qed.
  (** The usual case: the state is the value printed. *)
  Definition is_nan (x : F) : Prop := x = fnan.

  (** ** Averages *)

  Lemma ewma_hole data w o p : hole p data -> ewma data w = Ok o -> lost_from p o.
  Proof.
    intros H E. unfold ewma in E. inv E. apply lost_pad. set (alpha := #2 / fofnat (w + 1)).
    assert (Dead : forall s a, is_nan s -> is_nan (fst (ewma_step alpha s a)) /\ snd (ewma_step alpha s a) = fnan).
    { intros s a ->. unfold ewma_step, is_nan. cbn [fst snd]. now nans. }
    destruct (le_lt_dec (length data) p) as [L|L].
    { intros i x Hi E. exfalso. apply nth_error_Some' in E. cbn [length] in E. rewrite length_scan, skipn_length in E. lia. }
    destruct (le_lt_dec w p) as [Hp|Hp].
    - intros i x Hi E. destruct i as [|i]; [lia|]. cbn [nth_error] in E. refine (scan_kill _ is_nan Dead _ (p - w) _ _ i x ltac:(lia) E).
      intros a s Ea. rewrite (hole_skip p w _ ltac:(lia) H a Ea). unfold ewma_step, is_nan. cbn [fst snd]. now nans.
    - assert (I : In fnan (firstn w data)) by (eapply hole_In; eauto). rewrite (fsum_nan _ I). nans.
      intros i x Hi E. destruct i as [|i]; [cbn in E; congruence|]. cbn [nth_error] in E. exact (scan_dead _ is_nan Dead _ fnan eq_refl i x (Nat.le_0_l i) E).
  Qed.
  Lemma ewma_head data w o p : (p < w)%nat -> hole p data -> ewma data w = Ok o -> lost_from 0 o.
  Proof.
    intros Hp H E. pose proof (ewma_hole _ _ _ _ H E) as L. unfold ewma in E. inv E. intros i x _ Ei.
    destruct (le_lt_dec p i) as [Hi|Hi]; [exact (L i x Hi Ei)|]. rewrite nth_error_app1, nth_error_pad in Ei by (rewrite ?length_pad; lia). congruence.
  Qed.
  Lemma ewma_lost data w o p : lost_from p data -> ewma data w = Ok o -> lost_from p o.
  Proof. intros H. apply ewma_hole. eapply lost_hole; eauto. Qed.
  Theorem ewma_gap data w o p : missing p data -> ewma data w = Ok o -> lost_from p o.
  Proof. intros H. now apply ewma_hole, missing_hole. Qed.

  Lemma wilder_hole data w o p : w <> 1%nat -> hole p data -> wilder data w = Ok o -> lost_from p o.
  Proof.
    intros Hw H E. unfold wilder in E. rewrite (proj2 (Nat.eqb_neq w 1)) in E by easy. inv E. apply lost_pad.
    assert (Dead : forall s a, is_nan s -> is_nan (fst (wilder_step w s a)) /\ snd (wilder_step w s a) = fnan).
    { intros s a ->. unfold wilder_step, is_nan. cbn [fst snd]. now nans. }
    destruct (le_lt_dec (w - 1) p) as [Hp|Hp].
    - apply (scan_kill _ is_nan Dead). intros a s Ea. rewrite (hole_skip p (w - 1) _ ltac:(lia) H a Ea). unfold wilder_step, is_nan. cbn [fst snd]. now nans.
    - assert (I : In fnan (firstn (w - 1) data)) by (eapply hole_In; eauto; lia). rewrite (fsum_nan _ I). nans.
      intros i x Hi E. exact (scan_dead _ is_nan Dead _ fnan eq_refl i x (Nat.le_0_l i) E).
  Qed.
  Theorem wilder_gap data w o p : w <> 1%nat -> missing p data -> wilder data w = Ok o -> lost_from p o.
  Proof. intros Hw H. now apply wilder_hole, missing_hole. Qed.

  (** Values computed from two or three lists, one of them lost. *)
  Lemma lost_2l {B} (f : F * B -> F) a b p : (forall y, f (fnan, y) = fnan) -> lost_from p a -> lost_from p (map f (combine a b)).
  Proof. intros Hf L. apply lost_map. intros i [x y] Hi E. apply combine_nth in E as [E _]. now rewrite (L i x Hi E). Qed.
  Lemma lost_2r {A} (f : A * F -> F) a b p : (forall x, f (x, fnan) = fnan) -> lost_from p b -> lost_from p (map f (combine a b)).
  Proof. intros Hf L. apply lost_map. intros i [x y] Hi E. apply combine_nth in E as [_ E]. now rewrite (L i y Hi E). Qed.
  Lemma hole_2l {B} (f : F * B -> F) a b p : (forall y, f (fnan, y) = fnan) -> hole p a -> hole p (map f (combine a b)).
  Proof. intros Hf L. apply hole_map. intros [x y] E. apply combine_nth in E as [E _]. now rewrite (L x E). Qed.
  Lemma hole_2r {A} (f : A * F -> F) a b p : (forall x, f (x, fnan) = fnan) -> hole p b -> hole p (map f (combine a b)).
  Proof. intros Hf L. apply hole_map. intros [x y] E. apply combine_nth in E as [_ E]. now rewrite (L y E). Qed.

  Theorem dema_gap data w o p : missing p data -> dema data w = Ok o -> lost_from p o.
  Proof.
    intros H E. unfold dema in E. inv E. apply lost_2l; [intros y; now nans|]. eapply ewma_gap; eauto.
  Qed.
  Theorem tema_gap data w o p : missing p data -> tema data w = Ok o -> lost_from p o.
  Proof.
    intros H E. unfold tema in E. inv E. apply lost_map. intros i [[x y] z] Hi E. apply zip3_nth in E as (E & _ & _).
    rewrite (ewma_gap _ _ _ _ H Q i x Hi E). now nans.
  Qed.
  Theorem t3_gap data w factor o p : missing p data -> t3 data w factor = Ok o -> lost_from p o.
  Proof.
    intros H E. unfold t3 in E. inv E. apply lost_pad. apply lost_map. intros i [[[x y] z] t] Hi E. apply zip4_nth in E as (E & _).
    assert (L : lost_from (p - (w - 1) - (w - 1)) a1).
    { apply (ewma_lost _ _ _ _ (lost_skip _ _ _ (ewma_lost _ _ _ _ (lost_skip _ _ _ (ewma_gap _ _ _ _ H Q)) Q0)) Q1). }
    rewrite (L i x ltac:(lia) E). now nans.
  Qed.
  Theorem zlma_gap data w o p : missing p data -> zlma data w = Ok o -> lost_from p o.
  Proof.
    intros H E. unfold zlma in E. inv E. apply lost_pad. set (lag := ((w - 1) / 2)%nat) in *.
    destruct (le_lt_dec lag p) as [L|L].
    - eapply ewma_hole; [|eassumption]. apply hole_2r; [intros x; now nans|]. apply hole_skip; [easy|]. now apply missing_hole.
    - assert (Hl : (lag <= w - 1)%nat) by (apply Nat.div_le_upper_bound; lia).
      eapply lost_le with 0%nat; [|lia]. eapply (ewma_head _ w _ p); [lia| |eassumption]. apply hole_2l; [intros y; now nans|]. now apply missing_hole.
  Qed.

  Theorem hwma_gap data alpha beta gamma o p : missing p data -> hwma data alpha beta gamma = Ok o -> lost_from p o.
  Proof.
    intros H E. unfold hwma in E. inv E. apply (scan_kill _ (fun st => fst (fst st) = fnan)).
    - intros [[s0 s1] s2] x. cbn [fst snd]. intros ->. unfold hwma_step. cbn [fst snd]. now nans.
    - intros x [[s0 s1] s2] Ex. unfold missing in H. rewrite Ex in H. injection H as ->. unfold hwma_step. cbn [fst snd]. now nans.
  Qed.
  Theorem mdma_gap data w o p : missing p data -> mdma data w = Ok o -> lost_from p o.
  Proof.
    intros H E. unfold mdma in E. inv E.
    assert (Dead : forall s x, is_nan s -> is_nan (fst (mdma_step w s x)) /\ snd (mdma_step w s x) = fnan).
    { intros s x ->. unfold mdma_step, is_nan. cbn [fst snd]. now nans. }
    unfold missing in H. intros i x Hi E. destruct p as [|p].
    - rewrite Q in H. injection H as ->. destruct i as [|i]; cbn [nth_error] in E; [congruence|]. exact (scan_dead _ is_nan Dead _ fnan eq_refl i x (Nat.le_0_l i) E).
    - destruct i as [|i]; [lia|]. cbn [nth_error] in E. refine (scan_kill _ is_nan Dead _ p _ _ i x ltac:(lia) E).
      intros y s Ey. rewrite nth_error_skipn in Ey. cbn [plus] in Ey. rewrite Ey in H. injection H as ->. unfold mdma_step, is_nan. cbn [fst snd]. now nans.
  Qed.
  Theorem ssf_gap data w poles o p : missing p data -> ssf data w poles = Ok o -> lost_from p o.
  Proof.
    intros H E. unfold ssf in E. unfold missing in H. destruct (unwrap_or poles false).
    - match type of E with context [ssf3_step ?a ?b ?c ?d] => set (ca := a) in *; set (cb := b) in *; set (cc := c) in *; set (cd := d) in * end.
      clearbody ca cb cc cd. inv E. apply lost_pad.
      assert (Dead : forall s x, snd s = fnan -> snd (fst (ssf3_step ca cb cc cd s x)) = fnan /\ snd (ssf3_step ca cb cc cd s x) = fnan).
      { intros [[s0 s1] s2] x. cbn [fst snd]. intros ->. unfold ssf3_step. cbn [fst snd]. now nans. }
      destruct (le_lt_dec 3 p) as [Hp|Hp].
      + apply (scan_kill _ _ Dead). intros x [[s0 s1] s2] Ex. rewrite nth_error_skipn in Ex. replace (3 + (p - 3))%nat with p in Ex by lia. rewrite Ex in H. injection H as ->.
        unfold ssf3_step. cbn [fst snd]. now nans.
      + intros i x _ E. destruct (skipn 3 data) as [|y l]; [destruct i; easy|]. cbn [scan] in E.
        assert (K : snd (fst (ssf3_step ca cb cc cd (a, a0, a1) y)) = fnan /\ snd (ssf3_step ca cb cc cd (a, a0, a1) y) = fnan).
        { unfold ssf3_step. cbn [fst snd]. assert (D : a = fnan \/ a0 = fnan \/ a1 = fnan) by (destruct p as [|[|[|p]]]; [left|right; left|right; right|lia]; congruence).
          destruct D as [-> |[-> | ->]]; now nans. }
        destruct (ssf3_step ca cb cc cd (a, a0, a1) y) as [st v]. cbn [fst snd] in K. destruct K as [K1 K2]. destruct i as [|i]; cbn [nth_error] in E; [congruence|].
        exact (scan_dead _ _ Dead l st K1 i x (Nat.le_0_l i) E).
    - match type of E with context [ssf2_step ?a ?b ?c] => set (ca := a) in *; set (cb := b) in *; set (cc := c) in * end.
      clearbody ca cb cc. inv E. apply lost_pad.
      assert (Dead : forall s x, snd s = fnan -> snd (fst (ssf2_step ca cb cc s x)) = fnan /\ snd (ssf2_step ca cb cc s x) = fnan).
      { intros [s0 s1] x. cbn [fst snd]. intros ->. unfold ssf2_step. cbn [fst snd]. now nans. }
      destruct (le_lt_dec 2 p) as [Hp|Hp].
      + apply (scan_kill _ _ Dead). intros x [s0 s1] Ex. rewrite nth_error_skipn in Ex. replace (2 + (p - 2))%nat with p in Ex by lia. rewrite Ex in H. injection H as ->.
        unfold ssf2_step. cbn [fst snd]. now nans.
      + intros i x _ E. destruct (skipn 2 data) as [|y l]; [destruct i; easy|]. cbn [scan] in E.
        assert (K : snd (fst (ssf2_step ca cb cc (a, a0) y)) = fnan /\ snd (ssf2_step ca cb cc (a, a0) y) = fnan).
        { unfold ssf2_step. cbn [fst snd]. assert (D : a = fnan \/ a0 = fnan) by (destruct p as [|[|p]]; [left|right|lia]; congruence).
          destruct D as [-> | ->]; now nans. }
        destruct (ssf2_step ca cb cc (a, a0) y) as [st v]. cbn [fst snd] in K. destruct K as [K1 K2]. destruct i as [|i]; cbn [nth_error] in E; [congruence|].
        exact (scan_dead _ _ Dead l st K1 i x (Nat.le_0_l i) E).
  Qed.

  (** A window that holds the missing bar. *)
  Lemma window_In data w p j x : missing p data -> (j <= p < j + w)%nat -> nth_error (windows w data) j = Some x -> In fnan x.
  Proof.
    intros H Hj E. pose proof (nth_error_Some' _ _ _ E) as L. rewrite length_windows in L. rewrite nth_error_windows in E by lia. injection E as <-.
    apply nth_error_In with (p - j)%nat. rewrite nth_error_firstn by lia. rewrite nth_error_skipn. now replace (j + (p - j))%nat with p by lia.
  Qed.
  Lemma window_last data w p x : missing p data -> (0 < w)%nat -> (w - 1 <= p)%nat -> nth_error (windows w data) (p - (w - 1)) = Some x -> last_ x = fnan.
  Proof.
    intros H Hw Hj E. pose proof (nth_error_Some' _ _ _ E) as L. rewrite length_windows in L. rewrite nth_error_windows in E by lia. injection E as <-.
    unfold last_, at_. rewrite firstn_length, skipn_length. apply nth_error_nth. rewrite nth_error_firstn by lia. rewrite nth_error_skipn.
    unfold missing in H. rewrite <- H. f_equal. lia.
  Qed.
  Lemma path_nan (x : list F) : (2 <= length x)%nat -> In fnan x -> fold_left (fun acc p => acc + fabs (at_ p 0 - at_ p 1)) (windows 2 x) #0 = fnan.
  Proof.
    intros L I. apply In_nth_error in I as [q Eq].
    assert (Z : exists j, (j < length x - 1)%nat /\ (q = j \/ q = S j)).
    { pose proof (nth_error_Some' _ _ _ Eq). destruct q as [|q]; [exists 0%nat; lia|]. exists q. lia. }
    destruct Z as (j & Hj & Hq). unfold windows.
    assert (G : forall l s, In j l -> fold_left (fun acc p => acc + fabs (at_ p 0 - at_ p 1)) (map (fun i => firstn 2 (skipn i x)) l) s = fnan).
    { induction l as [|a l IH]; intros s I; [easy|]. destruct I as [-> |I]; cbn [map fold_left]; [|now apply IH].
      replace (fabs (at_ (firstn 2 (skipn j x)) 0 - at_ (firstn 2 (skipn j x)) 1)) with (@fnan F FO).
      - nans. apply fold_nan. intros y _. apply nan_add_l.
      - assert (V : forall t v, (t < 2)%nat -> nth_error x (j + t) = Some v -> at_ (firstn 2 (skipn j x)) t = v).
        { intros t v Ht Ev. unfold at_. apply nth_error_nth. rewrite nth_error_firstn by easy. now rewrite nth_error_skipn. }
        destruct Hq as [-> | ->].
        + rewrite (V 0%nat fnan) by (try lia; now replace (j + 0)%nat with j by lia). now nans.
        + rewrite (V 1%nat fnan) by (try lia; now replace (j + 1)%nat with (S j) by lia). now nans. }
    apply G. apply in_seq. lia.
  Qed.
  Theorem kama_gap data w short long o p : missing p data -> kama data w short long = Ok o -> lost_from p o.
  Proof.
    intros H E. unfold kama in E.
    match type of E with context [kama_step ?a ?b] => set (ca := a) in *; set (cb := b) in * end. clearbody ca cb. inv E. apply lost_pad.
    assert (Dead : forall s x, is_nan s -> is_nan (fst (kama_step ca cb s x)) /\ snd (kama_step ca cb s x) = fnan).
    { intros s x ->. unfold kama_step, is_nan. cbn [fst snd]. now nans. }
    apply (scan_kill _ is_nan Dead). intros x s Ex. destruct (le_lt_dec (w - 1) p) as [Hp|Hp].
    - pose proof (window_last data w p x H ltac:(lia) Hp Ex) as K. unfold kama_step, is_nan. rewrite K. cbn [fst snd]. now nans.
    - assert (I : In fnan x) by (apply (window_In data w p (p - (w - 1)) x H); [lia|exact Ex]).
      assert (Lx : length x = w) by (eapply windows_length; [lia|eapply nth_error_In; eauto]).
      unfold kama_step, is_nan. rewrite path_nan by (try easy; lia). cbn [fst snd]. unfold powi2. now nans.
  Qed.
  (** The first window of [frama] picks extremes and drops a missing bar; a bar
      at its end or later is final. *)
  Theorem frama_gap data w o p : (w - 1 <= p)%nat -> missing p data -> frama data w = Ok (Some o) -> lost_from p o.
  Proof.
    intros Hp H E. unfold frama in E. destruct (negb _); [easy|]. inv E. injection E as ->. apply lost_pad.
    assert (Dead : forall s x, is_nan s -> is_nan (fst (frama_step w s x)) /\ snd (frama_step w s x) = fnan).
    { intros s x ->. unfold frama_step, is_nan. destruct (fold_left _ _ _) as [[[h1 l1] h2] l2]. cbn [fst snd]. now nans. }
    apply (scan_kill _ is_nan Dead). intros x s Ex. pose proof (window_last data w p x H ltac:(lia) Hp Ex) as K.
    unfold frama_step, is_nan. rewrite K. destruct (fold_left _ _ _) as [[[h1 l1] h2] l2]. cbn [fst snd]. now nans.
  Qed.
  (** The gains and losses of [vma] drop a missing bar, and its first nine bars
      are not averaged; from the tenth on a missing bar is final. *)
  Theorem vma_gap data w o p : (9 <= p)%nat -> missing p data -> vma data w = Ok o -> lost_from p o.
  Proof.
    intros Hp H E. unfold vma in E. apply gap_ok in E as ->. apply lost_pad.
    replace (p - Nat.max w 9)%nat with ((p - 9) - (Nat.max w 9 - 9))%nat by lia. apply lost_skip.
    match goal with |- context [vma_step ?a] => set (ca := a) end. clearbody ca.
    apply (scan_kill _ is_nan).
    - intros s [v d] ->. unfold vma_step, is_nan. cbn [fst snd]. now nans.
    - intros [v d] s Ex. apply combine_nth in Ex as [_ Ex]. rewrite nth_error_skipn in Ex. replace (9 + (p - 9))%nat with p in Ex by lia.
      unfold missing in H. rewrite Ex in H. injection H as ->. unfold vma_step, is_nan. cbn [fst snd]. now nans.
  Qed.
  Lemma mean_nan (x : list F) w : In fnan x -> win_mean w x = fnan.
  Proof. intros I. unfold win_mean. rewrite (fsum_nan _ I). now nans. Qed.
  Lemma dev2_nan (x : list F) c : x <> [] -> c = fnan -> sum_dev2 c x = fnan.
  Proof.
    intros Hx ->. unfold sum_dev2. destruct x as [|a x]; [easy|]. cbn [fold_left]. unfold powi2. nans. apply fold_nan. intros y _. now nans.
  Qed.
  Lemma std_nan (x : list F) w : In fnan x -> std_dev_win w x = fnan.
  Proof. intros I. unfold std_dev_win. rewrite dev2_nan; [now nans|destruct x; easy|]. now apply mean_nan. Qed.
  Theorem vidya_gap data w o p : missing p data -> vidya data w = Ok o -> lost_from p o.
  Proof.
    intros H E. unfold vidya in E. match type of E with context [vidya_step ?a] => set (ca := a) in * end. clearbody ca. inv E. apply lost_pad.
    assert (Dead : forall s x, is_nan s -> is_nan (fst (vidya_step ca s x)) /\ snd (vidya_step ca s x) = fnan).
    { intros s [[u v] d] ->. unfold vidya_step, is_nan. cbn [fst snd]. now nans. }
    apply (scan_kill _ is_nan Dead). intros [[u v] d] s Ex. apply zip3_nth in Ex as (Eu & _ & Ed).
    assert (K : u = fnan \/ d = fnan).
    { destruct (le_lt_dec 23 p) as [Hp|Hp].
      - right. rewrite nth_error_skipn in Ed. replace (23 + (p - 23))%nat with p in Ed by lia. unfold missing in H. rewrite Ed in H. congruence.
      - left. replace (p - 23)%nat with 0%nat in * by lia. rewrite nth_error_skipn in Eu.
        unfold std_dev_raw in Q. inv Q. unfold sma in Q0. inv Q0. rewrite nth_error_app2 in Eu by (rewrite length_pad; lia). rewrite length_pad in Eu.
        cbn [plus minus] in Eu. apply map_nth_inv in Eu as (y & Ey & ->).
        unfold sma_win. rewrite fsum_nan; [now nans|].
        pose proof (nth_error_Some' _ _ _ Ey) as L. rewrite length_windows, map_length, length_windows in L.
        rewrite nth_error_windows in Ey by (rewrite map_length, length_windows; lia). apply some_inj in Ey as ->.
        set (j := (p - 4)%nat). assert (Hj : (j < 20)%nat) by (unfold j; lia).
        destruct (@nth_error_is_Some _ (windows 5 data) j) as [z Ez]; [rewrite length_windows; lia|].
        apply nth_error_In with j. rewrite nth_error_firstn by easy. rewrite nth_error_skipn. cbn [plus].
        rewrite nth_error_map', Ez. f_equal. apply std_nan. apply (window_In data 5 p j z H); [unfold j; lia|exact Ez]. }
    unfold vidya_step, is_nan. destruct K as [-> | ->]; cbn [fst snd]; now nans.
  Qed.

End Gap.
