(** * MirExact: prices turned upside down, in exact arithmetic.

    Oscillators that run from 0 to 100 turn into their complement to 100, and
    [wpr] into its complement to -100.  [heikin_ashi], [twiggs] and [ease] add the
    high and the low in another order, so that they mirror exactly only here, and
    not in binary64; a few results do not mirror at all. *)

From Coq Require Import Reals Lra Lia.
From Flocq Require Import IEEE754.BinarySingleNaN.
From Verif Require Import Spec Base BaseFacts Num B64 XReal RSpec XRFacts Bars OrderStat DistReal VolatReal MomReal Scale Mirror Refute.
From Verif Require Import Distribution Regression Smooth Correlation Volatility Volume Trend Momentum.
From Verif Require Import MirRel MirBars MirVals.
Local Unset Implicit Arguments.
Local Open Scope R_scope.

(** The series upside down, and every item's complement to [c]. *)
Definition flip (f : nat -> R) (k : nat) : R := - f k.
Definition complement (c : R) (o : list xr) : list xr := map (fun x => fsub (Fin c) x) o.

Lemma complement_of (r r' : result (list xr)) c o o' n k f g :
  r = Ok o -> r' = Ok o' -> aligned o n k NaN f -> aligned o' n k NaN g ->
  (forall i, (k <= i < n)%nat -> g i = fsub (Fin c) (f i)) -> r' = res_map (complement c) r.
Proof.
  intros -> -> A B H. cbn [res_map]. f_equal. eapply aligned_unique; [exact B|eapply aligned_map; [exact A|reflexivity]|exact H].
Qed.

Lemma max_flip w l i : highest w (flip l) i = - lowest w l i.
Proof.
  unfold highest, lowest, last_bars, flip. generalize (seq (i + 1 - w) w) as s. intros [|a s]; cbn [map Rmax_list Rmin_list]; [lra|].
  generalize (l a) as x. induction s as [|b s IH]; intros x; cbn [map fold_left]; [easy|]. rewrite <- IH. f_equal.
  unfold Rmax, Rmin. destruct (Rle_dec _ _), (Rle_dec _ _); lra.
Qed.
Lemma min_flip w l i : lowest w (flip l) i = - highest w l i.
Proof.
  unfold highest, lowest, last_bars, flip. generalize (seq (i + 1 - w) w) as s. intros [|a s]; cbn [map Rmax_list Rmin_list]; [lra|].
  generalize (l a) as x. induction s as [|b s IH]; intros x; cbn [map fold_left]; [easy|]. rewrite <- IH. f_equal.
  unfold Rmax, Rmin. destruct (Rle_dec _ _), (Rle_dec _ _); lra.
Qed.
Lemma share_flip u d : (if Req (d + u) 0 then NaN else Fin (100 * (d / (d + u)))) = fsub (Fin 100) (if Req (u + d) 0 then NaN else Fin (100 * (u / (u + d)))).
Proof.
  rewrite (Rplus_comm d u). destruct (Req (u + d) 0) eqn:E; [reflexivity|]. rewrite x_sub. f_equal. apply Req_false in E. field. lra.
Qed.
Lemma wilder_ext w k f g i : (forall j, f j = g j) -> wilder_from w k f i = wilder_from w k g i.
Proof. intros H. unfold wilder_from. now rewrite !(map_ext _ _ H). Qed.
Lemma last_ext w (f g : nat -> R) i : (forall j, f j = g j) -> last_bars w f i = last_bars w g i.
Proof. intros H. apply map_ext, H. Qed.
Lemma mean_flip w f i : mean (last_bars w (flip f) i) = - mean (last_bars w f i).
Proof.
  unfold mean, last_bars, flip. rewrite !map_length. rewrite (map_ext _ (fun k => -1 * f k)) by (intros; ring). rewrite Rsum_map_scale. unfold Rdiv. ring.
Qed.

Theorem rsi_mirror f n w : (0 < w < n)%nat -> rsi (xseries (flip f) n) w = res_map (complement 100) (rsi (xseries f n) w).
Proof.
  intros H. destruct (rsi_real f n w H) as (o & E & A). destruct (rsi_real (flip f) n w H) as (o' & E' & A').
  eapply complement_of; [exact E|exact E'|exact A|exact A'|]. intros i _. cbv beta zeta.
  rewrite (wilder_ext w 1 (up_move (flip f)) (down_move f)), (wilder_ext w 1 (down_move (flip f)) (up_move f)); [apply share_flip|..];
    intros j; unfold up_move, down_move, flip; f_equal; ring.
Qed.
Theorem wpr_mirror h l c n w : (0 < w)%nat -> (w - 1 <= n)%nat -> (forall k, (k < n)%nat -> l k <= c k <= h k) ->
  wpr (xseries (flip l) n) (xseries (flip h) n) (xseries (flip c) n) w = res_map (complement (-100)) (wpr (xseries h n) (xseries l n) (xseries c n) w).
Proof.
  intros Hw Hn H. destruct (wpr_real h l c n w Hw Hn H) as (o & E & A).
  destruct (wpr_real (flip l) (flip h) (flip c) n w Hw Hn) as (o' & E' & A'); [intros k Hk; specialize (H k Hk); unfold flip; lra|].
  eapply complement_of; [exact E|exact E'|exact A|exact A'|]. intros i _. cbv beta zeta. rewrite max_flip, min_flip.
  replace (- lowest w l i - - highest w h i) with (highest w h i - lowest w l i) by ring.
  destruct (Req _ 0) eqn:Z; [reflexivity|]. apply Req_false in Z. rewrite x_sub. f_equal. unfold flip. field. easy.
Qed.
Theorem tii_mirror f n w : (0 < w)%nat -> (w - 1 <= n)%nat -> tii (xseries (flip f) n) w = res_map (complement 100) (tii (xseries f n) w).
Proof.
  intros Hw Hn. destruct (tii_real f n w Hw Hn) as (o & E & A). destruct (tii_real (flip f) n w Hw Hn) as (o' & E' & A').
  eapply complement_of; [exact E|exact E'|exact A|exact A'|]. intros i _. cbv beta zeta.
  rewrite (last_ext _ (above_avg w (flip f)) (below_avg w f)), (last_ext _ (below_avg w (flip f)) (above_avg w f)); [apply share_flip|..];
    intros j; unfold above_avg, below_avg; rewrite mean_flip; unfold flip; destruct (_ <? _)%nat; try easy; f_equal; ring.
Qed.
Theorem relative_vol_mirror c n w s : (2 <= w)%nat -> (0 < s)%nat -> (w - 1 + s <= n)%nat ->
  relative_vol (xseries (flip c) n) w s = res_map (complement 100) (relative_vol (xseries c n) w s).
Proof.
  intros Hw Hs Hn. destruct (relative_vol_real c n w s Hw Hs Hn) as (o & E & A). destruct (relative_vol_real (flip c) n w s Hw Hs Hn) as (o' & E' & A').
  eapply complement_of; [exact E|exact E'|exact A|exact A'|]. intros i _. cbv beta zeta.
  assert (V : forall k, var (last_bars w (flip c) k) = var (last_bars w c k)).
  { intros k. unfold var. rewrite mean_flip. generalize (mean (last_bars w c k)) as e. intros e. unfold last_bars. rewrite !map_map. f_equal. apply map_ext. intros. unfold flip. ring. }
  assert (L : forall a b, Rltb (- a) (- b) = Rltb b a) by (intros; unfold Rltb; destruct (Rlt_dec (- a) (- b)), (Rlt_dec b a); try easy; lra).
  rewrite (wilder_ext s _ (gain_dev w (flip c)) (loss_dev w c)), (wilder_ext s _ (loss_dev w (flip c)) (gain_dev w c)); [apply share_flip|..];
    intros j; unfold gain_dev, loss_dev; rewrite V; unfold flip; now rewrite L.
Qed.
(** [psych] counts an unchanged price as a rise: the complement only without such bars. *)
Theorem psych_mirror f n w : (0 < w)%nat -> (forall k, (0 < k < n)%nat -> f (k - 1)%nat <> f k) ->
  psych (xseries (flip f) n) w = res_map (complement 100) (psych (xseries f n) w).
Proof.
  intros Hw N. destruct (psych_real f n w Hw) as (o & E & A). destruct (psych_real (flip f) n w Hw) as (o' & E' & A').
  eapply complement_of; [exact E|exact E'|exact A|exact A'|]. intros i Hi. cbv beta. rewrite x_sub. f_equal.
  assert (I : INR w <> 0) by (apply not_0_INR; lia).
  set (s := seq (i + 1 - w) w). assert (B : forall k, In k s -> (0 < k < n)%nat) by (intros k Hk; apply in_seq in Hk; lia).
  assert (S : length s = w) by apply seq_length.
  assert (C : (length (filter (fun k => Rleb (flip f (k - 1)) (flip f k)) s) + length (filter (fun k => Rleb (f (k - 1)%nat) (f k)) s) = w)%nat).
  { etransitivity; [|exact S]. clear - B N. induction s as [|k s IH]; [easy|]. cbn [filter length]. specialize (IH (fun j H => B j (or_intror H))).
    assert (D := N k (B k (or_introl eq_refl))).
    assert (G : Rleb (flip f (k - 1)) (flip f k) = negb (Rleb (f (k - 1)%nat) (f k))).
    { unfold flip, Rleb. destruct (Rle_dec _ _), (Rle_dec _ _); try easy; exfalso; lra. }
    rewrite G. destruct (Rleb (f (k - 1)%nat) (f k)); cbn [negb length]; lia. }
  apply (f_equal INR) in C. rewrite plus_INR in C. rewrite <- C at 2. rewrite <- C in I |- *. field. lra.
Qed.

(** The stochastic's K and D. *)
Lemma percent_flip w h l c i : highest w h i - lowest w l i <> 0 -> percent_k w (flip l) (flip h) (flip c) i = 100 - percent_k w h l c i.
Proof. intros N. unfold percent_k. rewrite max_flip, min_flip. unfold flip. field. lra. Qed.
Lemma mean_compl w f g i : (0 < w <= i + 1)%nat -> (forall k, (i < k + w)%nat -> (k <= i)%nat -> g k = 100 - f k) -> mean (last_bars w g i) = 100 - mean (last_bars w f i).
Proof.
  intros Hw H. unfold mean, last_bars. rewrite !map_length, seq_length.
  rewrite (map_ext_in g (fun k => 100 - f k)) by (intros k Hk; apply in_seq in Hk; apply H; lia).
  rewrite Rsum_map_sub, Rsum_const, seq_length. field. apply not_0_INR. lia.
Qed.
Lemma pairs_eq {A B} (x y : list (A * B)) : map fst x = map fst y -> map snd x = map snd y -> x = y.
Proof. revert y. induction x as [|[a b] x IH]; intros [|[c d] y]; cbn; try easy. intros [= -> H] [= -> K]. f_equal. auto. Qed.
Lemma both_fst {A B} (f : A -> A) (g : B -> B) x : map fst (map (fun '(k, d) => (f k, g d)) x) = map f (map fst x).
Proof. rewrite !map_map. apply map_ext. now intros []. Qed.
Lemma both_snd {A B} (f : A -> A) (g : B -> B) x : map snd (map (fun '(k, d) => (f k, g d)) x) = map g (map snd x).
Proof. rewrite !map_map. apply map_ext. now intros []. Qed.
Theorem stochastic_mirror h l c n w : (0 < w)%nat -> (w + 4 <= n + 1)%nat -> (forall i, (w - 1 <= i < n)%nat -> highest w h i - lowest w l i <> 0) ->
  stochastic (xseries (flip l) n) (xseries (flip h) n) (xseries (flip c) n) w
  = res_map (map (fun '(k, d) => (fsub (Fin 100) k, fsub (Fin 100) d))) (stochastic (xseries h n) (xseries l n) (xseries c n) w).
Proof.
  intros Hw Hn N. destruct (stochastic_real h l c n w Hw Hn N) as (o & E & K & D).
  destruct (stochastic_real (flip l) (flip h) (flip c) n w Hw Hn) as (o' & E' & K' & D').
  { intros i Hi. rewrite max_flip, min_flip. specialize (N i Hi). lra. }
  assert (KF : forall i, (w + 1 <= i < n)%nat -> mean (last_bars 3 (percent_k w (flip l) (flip h) (flip c)) i) = 100 - mean (last_bars 3 (percent_k w h l c) i)).
  { intros i Hi. apply mean_compl; [lia|]. intros. apply percent_flip, N. lia. }
  rewrite E, E'. cbn [res_map]. f_equal. apply pairs_eq.
  - rewrite both_fst.
    eapply aligned_unique; [exact K'|eapply aligned_map; [exact K|reflexivity]|]. intros i Hi. cbv beta. rewrite x_sub. f_equal. now apply KF.
  - rewrite both_snd.
    eapply aligned_unique; [exact D'|eapply aligned_map; [exact D|reflexivity]|]. intros i Hi. cbv beta. rewrite x_sub. f_equal. apply mean_compl; [lia|].
    intros. apply KF. lia.
Qed.
Theorem ultimate_mirror h l c n w1 w2 w3 : (0 < n)%nat -> (0 < w1 <= w3)%nat -> (0 < w2 <= w3)%nat ->
  (forall w i, w = w1 \/ w = w2 \/ w = w3 -> (w3 <= i < n)%nat -> Rsum (last_bars w (ult_range h l c) i) <> 0) ->
  ultimate (xseries (flip l) n) (xseries (flip h) n) (xseries (flip c) n) w1 w2 w3
  = res_map (complement 100) (ultimate (xseries h n) (xseries l n) (xseries c n) w1 w2 w3).
Proof.
  intros Hn H1 H2 N.
  assert (U : forall j, ult_range (flip l) (flip h) (flip c) j = ult_range h l c j).
  { intros j. unfold ult_range, flip, Rmax, Rmin. repeat destruct (Rle_dec _ _); lra. }
  assert (UR : forall w i, last_bars w (ult_range (flip l) (flip h) (flip c)) i = last_bars w (ult_range h l c) i) by (intros; apply map_ext; apply U).
  destruct (ultimate_real h l c n w1 w2 w3 Hn H1 H2 N) as (o & E & A).
  destruct (ultimate_real (flip l) (flip h) (flip c) n w1 w2 w3 Hn H1 H2) as (o' & E' & A'); [intros w i Hw Hi; rewrite UR; now apply N|].
  eapply complement_of; [exact E|exact E'|exact A|exact A'|]. intros i Hi. cbv beta zeta. rewrite x_sub. f_equal. rewrite !UR.
  assert (B : forall w, Rsum (last_bars w (buying_pressure (flip h) (flip c)) i) = Rsum (last_bars w (ult_range h l c) i) - Rsum (last_bars w (buying_pressure l c) i)).
  { intros w. unfold last_bars. rewrite <- Rsum_map_sub. f_equal. apply map_ext. intros j. unfold buying_pressure, ult_range, flip, Rmax, Rmin. repeat destruct (Rle_dec _ _); lra. }
  rewrite !B. pose proof (N w1 i ltac:(auto) Hi). pose proof (N w2 i ltac:(auto) Hi). pose proof (N w3 i ltac:(auto) Hi). field. auto.
Qed.

(** ** Results whose sums are taken in another order *)
Lemma xadd_swap (a b c : xr) : fadd (fadd a b) c = fadd (fadd a c) b.
Proof. destruct a as [|[]|], b as [|[]|], c as [|[]|]; cbn; try reflexivity. f_equal. ring. Qed.
Lemma xsub_swap (a b c : xr) : fsub (fsub a b) c = fsub (fsub a c) b.
Proof. destruct a as [|[]|], b as [|[]|], c as [|[]|]; cbn; try reflexivity. f_equal. ring. Qed.

Local Notation ss k := (Forall2 (@sm xr _ _ k)).
Local Open Scope F_scope.
Section Exact.
  Variables op hi lo cl op' hi' lo' cl' : list xr.
  Hypothesis Ho : ss N op op'.
  Hypothesis Hl : ss N lo hi'.
  Hypothesis Hh : ss N hi lo'.
  Hypothesis Hc : ss N cl cl'.
  Variable vol : list xr.
  Lemma four_mi o h l c o' h' l' c' : sm N o o' -> sm N h l' -> sm N l h' -> sm N c c' -> sm (FO := XR) O ((o + h + l + c) / #4) ((o' + h' + l' + c') / #4).
  Proof. intros. rewrite (xadd_swap o' h' l'). ar. Qed.
  Definition bar4 (x y : xr * xr * xr * xr) : Prop :=
    let '(o, h, l, c) := x in let '(o', h', l', c') := y in sm (FO := XR) O o o' /\ sm (FO := XR) O l h' /\ sm (FO := XR) O h l' /\ sm (FO := XR) O c c'.
  Lemma heikin_ashi_mi : rrel (Forall2 bar4) (heikin_ashi op hi lo cl) (heikin_ashi op' hi' lo' cl').
  Proof.
    unfold heikin_ashi. call r_idx. sw r_idx. call r_idx. call r_slice_from. sw r_slice_from. call r_slice_from. rr.
    pose proof (four_mi _ _ _ _ _ _ _ _ H H1 H0 H2) as P. constructor.
    { unfold bar4. split; [ar|split; [ar|split; [ar|exact P]]]. }
    eapply (f2_scan (prel (x23 (sm N) (sm N) (sm N)) (sm N)) bar4 (prel (sm O) (sm O))); [ls|split; [ar|exact P]|].
    intros. brk. unfold ha_step.
    match goal with |- prel _ _ (_, (?o + ?h + ?l + ?c) / #4, _) (_, (?o' + ?h' + ?l' + ?c') / #4, _) =>
      assert (Q : sm (FO := XR) O ((o + h + l + c) / #4) ((o' + h' + l' + c') / #4)) by (now apply four_mi) end.
    split; [split; [ar|exact Q]|]. unfold bar4. cbn [snd]. split; [ar|split; [ar|split; [ar|exact Q]]].
  Qed.
  Lemma tail4_mi : rrel (Forall2 (prel (prel (xrel (sm N) (sm N)) (sm N)) eq)) (tail4 hi lo cl vol) (tail4 hi' lo' cl' vol).
  Proof.
    unfold tail4. sw r_slice_from. call r_slice_from. rr.
  Qed.
  Lemma wilder_sum_mi l l' w : ss O l l' -> rrel (ss O) (wilder_sum l w) (wilder_sum l' w).
  Proof.
    intros. unfold wilder_sum. rr. eapply (f2_scan (sm O) (sm O) (sm O)); [ls|ar|]. intros. unfold wilder_sum_step. split; ar.
  Qed.
  Lemma twiggs_mi w : rrel (ss O) (twiggs hi lo cl vol w) (twiggs hi' lo' cl' vol w).
  Proof.
    unfold twiggs. eapply r_bind; [apply tail4_mi|]. intros. call r_idx.
    eapply r_bind; [apply wilder_sum_mi|].
    { eapply (f2_scan (prel (prel (xrel (sm N) (sm N)) (sm N)) eq) (sm O) (sm N)); [eassumption|ar|].
      intros. brk. unfold twiggs_step. split; [ar|]. rewrite (xsub_swap (_ * _) (fmin _ _)). ar. }
    intros. rr.
  Qed.
  Lemma idx_mi k l l' i : ss k l l' -> rrel (sm k) (idx l i) (idx l' i).
  Proof. intros. now apply r_idx. Qed.
  Lemma ease_bar_mi i : rrel (sm (FO := XR) O) (ease_bar hi lo vol i) (ease_bar hi' lo' vol i).
  Proof.
    pose proof (idx_mi _ _ _ i Hl) as A. pose proof (idx_mi _ _ _ i Hh) as B.
    pose proof (idx_mi _ _ _ (i - 1) Hl) as C. pose proof (idx_mi _ _ _ (i - 1) Hh) as D. unfold ease_bar.
    destruct (idx hi i), (idx lo' i); try easy; destruct (idx lo i), (idx hi' i); try easy.
    destruct (idx hi (i - 1)), (idx lo' (i - 1)); try easy; destruct (idx lo (i - 1)), (idx hi' (i - 1)); try easy.
    cbn [bind rrel] in *. destruct (idx vol i); [|easy]. cbn [bind rrel]. rewrite (xsub_swap (_ + _)). ar.
  Qed.
  Lemma ease_mi w : length hi = length lo -> rrel (ss O) (ease hi lo vol w) (ease hi' lo' vol w).
  Proof.
    intros L. unfold ease. rewrite (f2_length _ _ _ Hl), L. eapply r_bind.
    - eapply r_rmap; [apply f2_refl|]. intros i ? <-. apply ease_bar_mi.
    - intros. call sma_mi. rr.
  Qed.
End Exact.

Lemma exactly (x y : result (list xr)) : rrel (ss O) x y -> y = res_map (map fneg) x.
Proof. destruct x as [l|], y as [l'|]; cbn; try easy. intros H. f_equal. induction H as [|? ? ? ? A]; [easy|]. cbn. f_equal; [exact A|easy]. Qed.
Lemma exactly4 (x y : result (list (xr * xr * xr * xr))) : rrel (Forall2 bar4) x y -> y = res_map (map (fun '(o, h, l, c) => (fneg o, fneg l, fneg h, fneg c))) x.
Proof.
  destruct x as [l|], y as [l'|]; cbn; try easy. intros H. f_equal. induction H as [|[[[? ?] ?] ?] [[[? ?] ?] ?] ? ? A]; [easy|]. cbn. f_equal; [|easy].
  destruct A as (-> & -> & -> & ->). reflexivity.
Qed.
Theorem heikin_ashi_mirror (o h l c : list xr) :
  heikin_ashi (neg o) (neg l) (neg h) (neg c) = res_map (map (fun '(o, h, l, c) => (fneg o, fneg l, fneg h, fneg c))) (heikin_ashi o h l c).
Proof. apply exactly4, heikin_ashi_mi; apply neg_n. Qed.
Theorem twiggs_mirror (h l c v : list xr) (w : nat) : twiggs (neg l) (neg h) (neg c) v w = res_map neg (twiggs h l c v w).
Proof. apply exactly, twiggs_mi; apply neg_n. Qed.
Theorem ease_mirror (h l v : list xr) (w : nat) : length h = length l -> ease (neg l) (neg h) v w = res_map neg (ease h l v w).
Proof. intros L. apply exactly, ease_mi; [apply neg_n..|exact L]. Qed.

(** ** Not mirrored, in binary64 *)
Definition opp_b (x y : f64) : bool := Beqb y (Bopp x) || (is_nan x && is_nan y).
Lemma opposite_b m x y : @opposite f64 (B64 m) (B64Sym m) x y -> opp_b x y = true.
Proof.
  unfold opposite, opp_b. cbn [eqv B64Sym fneg B64]. intros [->|[A B]].
  - rewrite Beqb_refl. rewrite is_nan_Bopp. now destruct (is_nan x).
  - destruct x as [s|s| |s k e H], y as [t|t| |t j d G]; cbn in *; try easy; now destruct s, t.
Qed.
(** Every item the opposite, as a computation; the relation on binary64 implies it. *)
Fixpoint all_b {A} (p : A -> A -> bool) (x y : list A) : bool :=
  match x, y with [], [] => true | a :: x, b :: y => p a b && all_b p x y | _, _ => false end.
Definition res_b {A} (p : A -> A -> bool) (x y : result (list A)) : bool :=
  match x, y with Ok a, Ok b => all_b p a b | Panic, Panic => true | _, _ => false end.
Lemma refute {A} (R : A -> A -> Prop) p x y : (forall a b, R a b -> p a b = true) -> res_b p x y = false -> ~ rrel (Forall2 R) x y.
Proof.
  intros H. destruct x as [l|], y as [l'|]; cbn; try easy. intros E K. assert (X : all_b p l l' = true); [|now rewrite X in E].
  clear E. induction K as [|a b ? ? G K IH]; cbn; [easy|]. now rewrite (H _ _ G), IH.
Qed.
Ltac unlike m := apply (refute _ opp_b); [apply opposite_b|destruct m as [? ? ? ? ? ? ? []]; vm_compute; reflexivity].
Section Not.
  Variable m : libm.
  Local Notation mirrored := (rrel (Forall2 (@opposite f64 (B64 m) (B64Sym m)))).
  Local Notation "- l" := (@neg f64 (B64 m) l).
  (** an unchanged close counts as a rise *)
  Theorem obv_mirror_refuted : exists c v, ~ mirrored (@obv _ (B64 m) c v) (@obv _ (B64 m) (- c) v).
  Proof. exists [int 1; int 1], [int 1; int 1]. unlike m. Qed.
  (** the direction starts upwards *)
  Theorem tvi_mirror_refuted : exists c v t, ~ mirrored (@tvi _ (B64 m) c v t) (@tvi _ (B64 m) (- c) v t).
  Proof. exists [int 1; int 1], [int 1; int 1], (int 1). unlike m. Qed.
  Theorem supertrend_mirror_refuted : exists h l c w k, ~ mirrored (@supertrend _ (B64 m) h l c w k) (@supertrend _ (B64 m) (- l) (- h) (- c) w k).
  Proof. exists [int 3; int 3; int 3], [int 1; int 1; int 1], [int 2; int 2; int 2], 1%nat, (int 2). unlike m. Qed.
  Theorem psar_mirror_refuted : exists h l, ~ mirrored (@psar _ (B64 m) h l None None) (@psar _ (B64 m) (- l) (- h) None None).
  Proof. exists [int 3; int 3; int 3], [int 1; int 1; int 1]. unlike m. Qed.
  Theorem atr_stop_mirror_refuted : exists h l c w, ~ mirrored (@atr_stop _ (B64 m) h l c w None) (@atr_stop _ (B64 m) (- l) (- h) (- c) w None).
  Proof. exists [int 3; int 3; int 3], [int 1; int 1; int 1], [int 2; int 2; int 2], 1%nat. unlike m. Qed.
  (** the level starts from 0 and does not fall below it *)
  Theorem decay_mirror_refuted : exists l w, ~ mirrored (@decay _ (B64 m) l w) (@decay _ (B64 m) (- l) w).
  Proof. exists [int 1], 1%nat. unlike m. Qed.
  (** an unchanged close is taken for a fall *)
  Theorem ad_alt_mirror_refuted : exists h l c v, ~ mirrored (@ad _ (B64 m) h l c v (Some true)) (@ad _ (B64 m) (- l) (- h) (- c) v (Some true)).
  Proof. exists [int 3; int 4], [int 1; int 1], [int 2; int 2], [int 1; int 1]. unlike m. Qed.
  (** sums of a large high and a large negative low round differently in the other order *)
  Theorem twiggs_f64_mirror_refuted : exists h l c v w, ~ mirrored (@twiggs _ (B64 m) h l c v w) (@twiggs _ (B64 m) (- l) (- h) (- c) v w).
  Proof. exists [int (2 ^ 53); int (2 ^ 53)], [int (- 2 ^ 53); int (- 2 ^ 53)], [dec 1 2; dec 1 2], [int 1; int 1], 1%nat. unlike m. Qed.
  Theorem ease_f64_mirror_refuted : exists h l v w, ~ mirrored (@ease _ (B64 m) h l v w) (@ease _ (B64 m) (- l) (- h) v w).
  Proof. exists [int (2 ^ 53); int 1], [int (- 2 ^ 53); int 0], [int 1; int 1], 1%nat. unlike m. Qed.
End Not.
