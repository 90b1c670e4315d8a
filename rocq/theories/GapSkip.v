(** * GapSkip: what passes over a missing bar.

    [Gap] and [GapMore] list the indicators that a single missing bar (a NaN)
    silences for good.  Here are the ones that go on: a missing high or low is
    left out of a channel, a missing volume leaves the volume indices where they
    were, a missing close or high or low shortens the true range to what is
    known, changes next to a missing price count as no gain and no loss. *)

From Coq Require Import Reals Lra Lia List Bool.
From Flocq Require Import Core IEEE754.BinarySingleNaN.
From Verif Require Import Base BaseFacts Num Spec Bars B64 XReal F64 NaN Smooth Momentum Trend Volume Volatility Regression MomReal VolatReal VolumeReal F64Range F64Err Gap GapMore.
Import ListNotations.
Local Unset Implicit Arguments.

Section Holed.
  Context {F : Type} {FO : FOps F} {N : FNan FO}.
  Local Open Scope F_scope.
  Lemma num_max_r (x : F) : fmax x fnan = x.
  Proof. apply fmax_nan_r. Qed.

  (** [tr]: without the previous close the bar's own range is left, without the
      high or the low the distance of the other from the previous close. *)
  Theorem tr_holed (h l c : nat -> F) n o i : tr (series h n) (series l n) (series c n) = Ok o -> (1 <= i < n)%nat ->
    (c (i - 1)%nat = fnan -> nth_error o i = Some (h i - l i)) /\
    (h i = fnan -> nth_error o i = Some (fabs (l i - c (i - 1)%nat))) /\
    (l i = fnan -> nth_error o i = Some (fabs (h i - c (i - 1)%nat))).
  Proof.
    intros E Hi. destruct (tr_values h l c n) as (o' & E' & (_ & _ & V)); [lia|]. rewrite E in E'. apply gap_ok in E' as ->. rewrite (V i Hi). unfold tr_at.
    split; [|split]; intros ->; nans; rewrite ?fmax_nan_l, ?fmax_nan_r; reflexivity.
  Qed.

  (** [pvi], [nvi]: no volume, no change, neither on that bar nor on the next. *)
  Lemma vol_index_holed up (c v : nat -> F) i : (forall x, up fnan x = false) -> (forall x, up x fnan = false) ->
    v (S i) = fnan \/ v i = fnan -> vol_index up c v (S i) = vol_index up c v i.
  Proof. intros H1 H2 [E|E]; apply vol_index_repeats; rewrite E; auto. Qed.
  Theorem pvi_holed (c v : nat -> F) n i : (2 <= i < n)%nat -> v i = fnan \/ v (i - 1)%nat = fnan ->
    nth_error (pvi (series c n) (series v n)) i = nth_error (pvi (series c n) (series v n)) (i - 1).
  Proof.
    intros Hi H. destruct (pvi_values c v n) as (_ & _ & V). rewrite !V by lia. f_equal. destruct i as [|j]; [lia|]. replace (S j - 1)%nat with j in * by lia.
    apply vol_index_holed; [intros x; unfold fgtb; now nans|intros x; unfold fgtb; now nans|easy].
  Qed.
  Theorem nvi_holed (c v : nat -> F) n i : (2 <= i < n)%nat -> v i = fnan \/ v (i - 1)%nat = fnan ->
    nth_error (nvi (series c n) (series v n)) i = nth_error (nvi (series c n) (series v n)) (i - 1).
  Proof.
    intros Hi H. destruct (nvi_values c v n) as (_ & _ & V). rewrite !V by lia. f_equal. destruct i as [|j]; [lia|]. replace (S j - 1)%nat with j in * by lia.
    apply vol_index_holed; [intros x; now nans|intros x; now nans|easy].
  Qed.

  (** [psych]: a bar is counted as a rise only when both its price and the one
      before are there; the divisor stays the window. *)
  Theorem psych_holed (f : nat -> F) n w : (0 < w)%nat -> exists o, psych (series f n) w = Ok o /\
    aligned o n w fnan (fun i => fsum (last_bars w (fun k => if fisnan (f k) || fisnan (f (k - 1)%nat) then #0 else fmax (fsignum (f k - f (k - 1)%nat)) #0) i) * #100 / fofnat w).
  Proof.
    intros Hw. destruct (psych_values f n w Hw) as (o & E & (L & W & V)). exists o. split; [exact E|]. split; [exact L|]. split; [exact W|].
    intros i Hi. rewrite (V i Hi). do 3 f_equal. f_equal. unfold last_bars. apply map_ext. intros k.
    destruct (fisnan (f k)) eqn:A; [apply isnan_spec in A; rewrite A; nans; now rewrite fsignum_nan, fmax_nan_l|].
    destruct (fisnan (f (k - 1)%nat)) eqn:B; [apply isnan_spec in B; rewrite B; nans; now rewrite fsignum_nan, fmax_nan_l|]. reflexivity.
  Qed.

  (** [rsi]: the same averages of gains and losses, with no gain and no loss
      where either price is missing. *)
  Theorem rsi_holed (data : list F) w :
    let known f := map (fun '(a, b) => if fisnan a || fisnan b then #0 else f (b - a)) (combine data (skipn 1 data)) in
    rsi data w = (let* g := wilder (known (fun d => fmax #0 d)) w in let* l := wilder (known (fun d => fabs (fmin #0 d))) w in
      Ok (fnan :: map (fun '(g, l) => #100 * g / (g + l)) (combine g l))).
  Proof.
    cbv zeta. unfold rsi, pairs.
    assert (A : forall l : list (F * F), map gain l = map (fun '(a, b) => if fisnan a || fisnan b then #0 else fmax #0 (b - a)) l).
    { intros l. apply map_ext. intros [a b]. unfold gain. destruct (fisnan a) eqn:A; [apply isnan_spec in A as ->; nans; now rewrite fmax_nan_r|].
      destruct (fisnan b) eqn:B; [apply isnan_spec in B as ->; nans; now rewrite fmax_nan_r|]. reflexivity. }
    assert (B : forall l : list (F * F), map loss l = map (fun '(a, b) => if fisnan a || fisnan b then #0 else fabs (fmin #0 (b - a))) l).
    { intros l. apply map_ext. intros [a b]. unfold loss. destruct (fisnan a) eqn:Q; [apply isnan_spec in Q as ->; nans; now rewrite fmin_nan_r, zero_abs|].
      destruct (fisnan b) eqn:Q'; [apply isnan_spec in Q' as ->; nans; now rewrite fmin_nan_r, zero_abs|]. reflexivity. }
    now rewrite A, B.
  Qed.

  (** [aroon]: a missing bar is never the extreme, except as the oldest of the
      window, where it hides every later one: the answer is then 0 bars. *)
  Lemma arg_stuck (better : F -> F -> bool) l : (forall x, better x fnan = false) -> forall k, fold_left (fun '(bi, bx) '(i, x) => if better x bx then (i, x) else (bi, bx)) (combine (seq k (length l)) l) (0%nat, fnan) = (0%nat, fnan).
  Proof. intros H. induction l as [|a l IH]; intros k; [reflexivity|]. cbn. rewrite H. apply IH. Qed.
  Theorem aroon_holed (h l : nat -> F) n w o i : aroon (series h n) (series l n) w = Ok o -> (w <= i < n)%nat ->
    exists up down, nth_error o i = Some (up, down) /\
    (h (i - w)%nat = fnan -> up = fofnat 0 / fofnat w * #100) /\ (l (i - w)%nat = fnan -> down = fofnat 0 / fofnat w * #100).
  Proof.
    intros E Hi. unfold aroon in E. apply gap_ok in E as ->. unfold series. rewrite !windows_bars by lia. rewrite combine_bars, Nat.min_id, map_map.
    unfold pad. rewrite nth_error_app2; rewrite repeat_length; [|lia]. rewrite nth_error_map', nth_error_seq by lia. cbn [option_map]. replace (0 + (w + 1) - 1 + (i - w))%nat with i by lia.
    unfold aroon_win. eexists _, _. split; [reflexivity|].
    assert (W : forall f : nat -> F, exists t, last_bars (w + 1) f i = f (i - w)%nat :: t).
    { intros f. unfold last_bars. replace (i + 1 - (w + 1))%nat with (i - w)%nat by lia. replace (w + 1)%nat with (S w) by lia. cbn [seq map]. eexists. reflexivity. }
    assert (S : forall better (f : nat -> F), (forall x, better x fnan = false) -> f (i - w)%nat = fnan -> arg_last better (last_bars (w + 1) f i) = 0%nat).
    { intros better f Hb Hf. destruct (W f) as (t & ->). rewrite Hf. unfold arg_last, enumerate. cbn [at_ nth length seq combine fold_left]. rewrite Hb. now rewrite arg_stuck. }
    split; intros K; rewrite S; try easy; intros x; unfold fgeb; now nans.
  Qed.
End Holed.

Local Open Scope R_scope.
(** ** f64 *)
Section F64.
  Context (m : libm).
  Local Notation B := (B64 m).
  Local Notation is_nan := BinarySingleNaN.is_nan.

  (** The order of the numbers that are not NaN, infinities included. *)
  Lemma lt_trans_neg (a b c : f64) : is_nan b = false -> Bltb a b = false -> Bltb b c = false -> is_nan a = false -> is_nan c = false -> Bltb a c = false.
  Proof.
    rewrite !ltb_xval. intros Hb Hab Hbc Ha Hc.
    assert (A : xval a <> NaN) by (destruct a; easy). assert (A' : xval b <> NaN) by (destruct b; easy). assert (A'' : xval c <> NaN) by (destruct c; easy). clear Ha Hb Hc.
    destruct (xval a) as [ra|[]|], (xval b) as [rb|[]|], (xval c) as [rc|[]|]; cbn in *; try easy. apply Rltb_f in Hab. apply Rltb_f in Hbc. apply Rltb_f. lra.
  Qed.
  Lemma lt_irrefl (a : f64) : Bltb a a = false.
  Proof. rewrite ltb_xval. destruct (xval a) as [r|[]|]; try easy. apply Rltb_f. lra. Qed.
  Lemma lt_asym (a b : f64) : Bltb a b = true -> Bltb b a = false.
  Proof. rewrite !ltb_xval. destruct (xval a) as [r|[]|], (xval b) as [s|[]|]; cbn; try easy. intros H. apply Rltb_t in H. apply Rltb_f. lra. Qed.

  Lemma fold_max_holed l : forall a : f64, is_nan a = false ->
    let r := fold_left (@fmax f64 B) l a in is_nan r = false /\ Bltb r a = false /\ (forall x, In x l -> is_nan x = false -> Bltb r x = false).
  Proof.
    induction l as [|b l IH]; intros a Ha; cbn [fold_left]; [cbv zeta; split; [easy|split; [apply lt_irrefl|easy]]|]. cbv zeta.
    change (fmax a b) with (if is_nan a then b else if is_nan b then a else if Bltb a b then b else a). rewrite Ha.
    destruct (is_nan b) eqn:Hb; [destruct (IH a Ha) as (P1 & P2 & P3); split; [easy|]; split; [easy|]; intros x [<- |Hx] Nx; [congruence|auto]|].
    destruct (Bltb a b) eqn:C.
    - destruct (IH b Hb) as (P1 & P2 & P3). split; [easy|]. split; [apply (lt_trans_neg _ b); auto; now apply lt_asym|]. intros x [<- |Hx] Nx; auto.
    - destruct (IH a Ha) as (P1 & P2 & P3). split; [easy|]. split; [easy|]. intros x [<- |Hx] Nx; [apply (lt_trans_neg _ a); auto|auto].
  Qed.
  Lemma fold_min_holed l : forall a : f64, is_nan a = false ->
    let r := fold_left (@fmin f64 B) l a in is_nan r = false /\ Bltb a r = false /\ (forall x, In x l -> is_nan x = false -> Bltb x r = false).
  Proof.
    induction l as [|b l IH]; intros a Ha; cbn [fold_left]; [cbv zeta; split; [easy|split; [apply lt_irrefl|easy]]|]. cbv zeta.
    change (fmin a b) with (if is_nan a then b else if is_nan b then a else if Bltb b a then b else a). rewrite Ha.
    destruct (is_nan b) eqn:Hb; [destruct (IH a Ha) as (P1 & P2 & P3); split; [easy|]; split; [easy|]; intros x [<- |Hx] Nx; [congruence|auto]|].
    destruct (Bltb b a) eqn:C.
    - destruct (IH b Hb) as (P1 & P2 & P3). split; [easy|]. split; [apply (lt_trans_neg _ b); auto; now apply lt_asym|]. intros x [<- |Hx] Nx; auto.
    - destruct (IH a Ha) as (P1 & P2 & P3). split; [easy|]. split; [easy|]. intros x [<- |Hx] Nx; [apply (lt_trans_neg _ a); auto|auto].
  Qed.
  (** The highest of what is there: a member no present value exceeds, and NaN
      only when nothing is there. *)
  Lemma max_of_holed (l : list f64) : let r := @max_of f64 B l in
    (forall x, In x l -> is_nan x = false -> is_nan r = false /\ In r l /\ Bltb r x = false).
  Proof.
    cbv zeta. intros x Hx Nx. unfold max_of. change (@fnan f64 B) with (@B754_nan 53 1024).
    induction l as [|a l IH]; [easy|]. cbn [fold_left]. change (fmax B754_nan a) with a. destruct (is_nan a) eqn:Ha.
    - destruct a; try easy. destruct Hx as [<- |Hx]; [easy|]. destruct (IH Hx) as (P1 & P2 & P3). split; [easy|]. split; [now right|easy].
    - destruct (fold_max_holed l a Ha) as (P1 & P2 & P3). cbv zeta in *. split; [easy|]. split.
      + assert (NE : a :: l <> []) by easy. pose proof (max_of_in m (a :: l) NE) as I. unfold max_of in I. cbn [fold_left] in I. exact I.
      + destruct Hx as [<- |Hx]; [easy|now apply P3].
  Qed.
  Lemma min_of_holed (l : list f64) : let r := @min_of f64 B l in
    (forall x, In x l -> is_nan x = false -> is_nan r = false /\ In r l /\ Bltb x r = false).
  Proof.
    cbv zeta. intros x Hx Nx. unfold min_of. change (@fnan f64 B) with (@B754_nan 53 1024).
    induction l as [|a l IH]; [easy|]. cbn [fold_left]. change (fmin B754_nan a) with a. destruct (is_nan a) eqn:Ha.
    - destruct a; try easy. destruct Hx as [<- |Hx]; [easy|]. destruct (IH Hx) as (P1 & P2 & P3). split; [easy|]. split; [now right|easy].
    - destruct (fold_min_holed l a Ha) as (P1 & P2 & P3). cbv zeta in *. split; [easy|]. split.
      + assert (NE : a :: l <> []) by easy. pose proof (min_of_in m (a :: l) NE) as I. unfold min_of in I. cbn [fold_left] in I. exact I.
      + destruct Hx as [<- |Hx]; [easy|now apply P3].
  Qed.

  (** [donchian]: whatever is missing, the upper band is one of the highs of the
      window and no high that is there exceeds it; likewise the lower. *)
  Theorem donchian_f64_holed (h l : nat -> f64) n w o i : (0 < w)%nat -> @donchian f64 B (series h n) (series l n) w = Ok o -> (w - 1 <= i < n)%nat ->
    exists u mid d, nth_error o i = Some (u, mid, d) /\
    (forall k, (k <= i < k + w)%nat -> is_nan (h k) = false -> is_nan u = false /\ Bltb u (h k) = false /\ exists j, (j <= i < j + w)%nat /\ u = h j) /\
    (forall k, (k <= i < k + w)%nat -> is_nan (l k) = false -> is_nan d = false /\ Bltb (l k) d = false /\ exists j, (j <= i < j + w)%nat /\ d = l j) /\
    ((forall k, (k <= i < k + w)%nat -> is_nan (h k) = true) -> is_nan u = true) /\
    ((forall k, (k <= i < k + w)%nat -> is_nan (l k) = true) -> is_nan d = true).
  Proof.
    intros Hw E Hi. destruct (@donchian_values _ B h l n w Hw) as (o' & E' & (_ & _ & V)). rewrite E in E'. apply gap_ok in E' as ->.
    specialize (V i Hi). cbv beta zeta in V. eexists _, _, _. split; [exact V|]. clear V E.
    assert (I : forall (f : nat -> f64) k, (k <= i < k + w)%nat -> In (f k) (last_bars w f i)).
    { intros f k Hk. apply In_last_bars; [lia|]. exists k. repeat split; lia. }
    assert (J : forall (f : nat -> f64) x, In x (last_bars w f i) -> exists j, (j <= i < j + w)%nat /\ x = f j).
    { intros f x Hx. apply In_last_bars in Hx as (k & H1 & H2 & ->); [|lia]. exists k. split; [lia|easy]. }
    assert (NE : forall f : nat -> f64, last_bars w f i <> []) by (intros f; now apply last_bars_nonempty).
    split; [|split; [|split]].
    - intros k Hk Nk. destruct (max_of_holed _ _ (I h k Hk) Nk) as (P1 & P2 & P3). split; [exact P1|]. split; [exact P3|exact (J h _ P2)].
    - intros k Hk Nk. destruct (min_of_holed _ _ (I l k Hk) Nk) as (P1 & P2 & P3). split; [exact P1|]. split; [exact P3|exact (J l _ P2)].
    - intros H. destruct (J h _ (max_of_in m _ (NE h))) as (j & Hj & ->). now apply H.
    - intros H. destruct (J l _ (min_of_in m _ (NE l))) as (j & Hj & ->). now apply H.
  Qed.

  (** [fbands]: which centre of five is a top or a bottom, in terms of
      comparisons between floats, NaN or not.  A missing neighbour is passed
      over, except the oldest of the five, without which there is no pivot. *)
  Definition top (h : nat -> f64) (i : nat) : bool :=
    Bltb (h (i - 4)%nat) (h (i - 2)%nat) && negb (Bleb (h (i - 2)%nat) (h (i - 3)%nat)) && negb (Bltb (h (i - 2)%nat) (h (i - 1)%nat)) && negb (Bltb (h (i - 2)%nat) (h i)).
  Definition bottom (l : nat -> f64) (i : nat) : bool :=
    Bltb (l (i - 2)%nat) (l (i - 4)%nat) && negb (Bleb (l (i - 3)%nat) (l (i - 2)%nat)) && negb (Bltb (l (i - 1)%nat) (l (i - 2)%nat)) && negb (Bltb (l i) (l (i - 2)%nat)).
  Fixpoint latest (pivot : nat -> bool) (f : nat -> f64) (i : nat) : f64 :=
    match i with O => B754_zero false | S j => if (4 <=? i)%nat && pivot i then f (i - 2)%nat else latest pivot f j end.
  Lemma arg_first5 (better : f64 -> f64 -> bool) (a b c d e : f64) : better a a = false ->
    (@arg_first f64 B better [a; b; c; d; e] =? 2)%nat = better c (if better b a then b else a) && negb (better d c) && negb (better e c).
  Proof.
    intros H. unfold arg_first, enumerate. cbn [length seq combine fold_left at_ nth]. rewrite H.
    destruct (better b a) eqn:E1; [destruct (better c b) eqn:E2|destruct (better c a) eqn:E2]; cbn [andb].
    1, 3: destruct (better d c) eqn:E3; cbn [negb andb]; [destruct (better e d); reflexivity|destruct (better e c); reflexivity].
    - destruct (better d b); [destruct (better e d); reflexivity|destruct (better e b); reflexivity].
    - destruct (better d a); [destruct (better e d); reflexivity|destruct (better e a); reflexivity].
  Qed.
  Lemma top_spec h i : (4 <= i)%nat -> (@arg_first f64 B (@fgtb f64 B) (last_bars 5 h i) =? 2)%nat = top h i.
  Proof.
    intros Hi. unfold last_bars. cbn [seq map]. rewrite arg_first5 by (apply lt_irrefl). unfold top.
    replace (i + 1 - 5)%nat with (i - 4)%nat by lia. replace (S (i - 4)) with (i - 3)%nat by lia. replace (S (i - 3)) with (i - 2)%nat by lia. replace (S (i - 2)) with (i - 1)%nat by lia. replace (S (i - 1)) with i by lia.
    f_equal. f_equal. unfold fgtb. generalize (h (i - 4)%nat) (h (i - 3)%nat) (h (i - 2)%nat). clear. intros a b c.
    change (Bltb (if Bltb a b then b else a) c = Bltb a c && negb (Bleb c b)). rewrite leb_xval. destruct (Bltb a b) eqn:E; rewrite ltb_xval in E; rewrite !ltb_xval.
    all: destruct (xval a) as [ra|[]|], (xval b) as [rb|[]|], (xval c) as [rc|[]|]; cbn in *; try reflexivity; try discriminate E; try (now rewrite ?andb_false_r, ?andb_true_r).
    all: unfold Rltb, Rleb in *; repeat match goal with |- context [Rlt_dec ?x ?y] => destruct (Rlt_dec x y) | |- context [Rle_dec ?x ?y] => destruct (Rle_dec x y) | H : context [Rlt_dec ?x ?y] |- _ => destruct (Rlt_dec x y) end; cbn; try reflexivity; try discriminate E; exfalso; lra.
  Qed.
  Lemma bottom_spec l i : (4 <= i)%nat -> (@arg_first f64 B (@fltb f64 B) (last_bars 5 l i) =? 2)%nat = bottom l i.
  Proof.
    intros Hi. unfold last_bars. cbn [seq map]. rewrite arg_first5 by (apply lt_irrefl). unfold bottom.
    replace (i + 1 - 5)%nat with (i - 4)%nat by lia. replace (S (i - 4)) with (i - 3)%nat by lia. replace (S (i - 3)) with (i - 2)%nat by lia. replace (S (i - 2)) with (i - 1)%nat by lia. replace (S (i - 1)) with i by lia.
    f_equal. f_equal. generalize (l (i - 4)%nat) (l (i - 3)%nat) (l (i - 2)%nat). clear. intros a b c.
    change (Bltb c (if Bltb b a then b else a) = Bltb c a && negb (Bleb b c)). rewrite leb_xval. destruct (Bltb b a) eqn:E; rewrite ltb_xval in E; rewrite !ltb_xval.
    all: destruct (xval a) as [ra|[]|], (xval b) as [rb|[]|], (xval c) as [rc|[]|]; cbn in *; try reflexivity; try discriminate E; try (now rewrite ?andb_false_r, ?andb_true_r).
    all: unfold Rltb, Rleb in *; repeat match goal with |- context [Rlt_dec ?x ?y] => destruct (Rlt_dec x y) | |- context [Rle_dec ?x ?y] => destruct (Rle_dec x y) | H : context [Rlt_dec ?x ?y] |- _ => destruct (Rlt_dec x y) end; cbn; try reflexivity; try discriminate E; exfalso; lra.
  Qed.
  Lemma latest_band better pivot (f : nat -> f64) : (forall i, (4 <= i)%nat -> (@arg_first f64 B better (last_bars 5 f i) =? 2)%nat = pivot i) ->
    forall i, @band f64 B better f i = latest pivot f i.
  Proof.
    intros H. induction i as [|i IH]; [reflexivity|]. cbn [band latest]. destruct (4 <=? S i)%nat eqn:E; cbn [andb]; [|exact IH]. apply Nat.leb_le in E. rewrite (H _ E). now destruct (pivot (S i)).
  Qed.
  Theorem fbands_f64_holed (h l : nat -> f64) n : aligned (@fbands f64 B (series h n) (series l n)) n 4 (B754_nan, B754_nan)
    (fun i => (latest (top h) h i, latest (bottom l) l i)).
  Proof.
    destruct (@fbands_values f64 B h l n) as (L & W & V). split; [exact L|]. split; [exact W|]. intros i Hi. rewrite (V i Hi).
    rewrite (latest_band _ (top h)) by (intros; now apply top_spec). rewrite (latest_band _ (bottom l)) by (intros; now apply bottom_spec). reflexivity.
  Qed.

  (** [smape]: a pair with a missing value counts as a perfect estimate, and the
      average is still over all pairs. *)
  Definition patched (known : nat -> bool) (d : nat -> f64) : nat -> f64 := fun k => if known k then d k else b64_lit 1 1.
  Theorem smape_f64_holed (d e : nat -> f64) n : let known k := negb (is_nan (d k)) && negb (is_nan (e k)) in
    @smape f64 B (series d n) (series e n) = @smape f64 B (series (patched known d) n) (series (patched known e) n).
  Proof.
    cbv zeta. set (known := fun k => _). unfold smape, obs_est, enumerate. rewrite !length_series. unfold series.
    assert (G : forall k j st, scan (fun (state : f64) '(cnt, observe, est) => let state' := @fadd f64 B state (@fmax f64 B (@fdiv f64 B (@fabs f64 B (@fsub f64 B observe est)) (@fdiv f64 B (@fadd f64 B (@fabs f64 B observe) (@fabs f64 B est)) (@flit f64 B 2 1))) (@flit f64 B 0 1)) in (state', @fdiv f64 B (@fmul f64 B (@flit f64 B 100 1) state') (@fofnat f64 B (cnt + 1)))) st (combine (combine (seq j k) (map d (seq j k))) (map e (seq j k))) =
      scan (fun (state : f64) '(cnt, observe, est) => let state' := @fadd f64 B state (@fmax f64 B (@fdiv f64 B (@fabs f64 B (@fsub f64 B observe est)) (@fdiv f64 B (@fadd f64 B (@fabs f64 B observe) (@fabs f64 B est)) (@flit f64 B 2 1))) (@flit f64 B 0 1)) in (state', @fdiv f64 B (@fmul f64 B (@flit f64 B 100 1) state') (@fofnat f64 B (cnt + 1)))) st (combine (combine (seq j k) (map (patched known d) (seq j k))) (map (patched known e) (seq j k)))).
    { induction k as [|k IH]; intros j st; [reflexivity|]. cbn [seq map combine scan].
      assert (T : @fmax f64 B (@fdiv f64 B (@fabs f64 B (@fsub f64 B (d j) (e j))) (@fdiv f64 B (@fadd f64 B (@fabs f64 B (d j)) (@fabs f64 B (e j))) (@flit f64 B 2 1))) (@flit f64 B 0 1) =
        @fmax f64 B (@fdiv f64 B (@fabs f64 B (@fsub f64 B (patched known d j) (patched known e j))) (@fdiv f64 B (@fadd f64 B (@fabs f64 B (patched known d j)) (@fabs f64 B (patched known e j))) (@flit f64 B 2 1))) (@flit f64 B 0 1)).
      { unfold patched, known. destruct (is_nan (d j)) eqn:A; cbn [negb andb].
        - destruct (d j); easy.
        - destruct (is_nan (e j)) eqn:A'; cbn [negb]; [|reflexivity]. destruct (e j); try discriminate A'. change (@B754_nan 53 1024) with (@fnan f64 B). nans. rewrite fmax_nan_l. apply B2SF_inj. vm_compute. reflexivity. }
      cbv zeta. rewrite T. f_equal. apply IH. }
    apply G.
  Qed.
End F64.
