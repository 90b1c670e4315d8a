(** * ForgetC: what oscillators remember (C87).

    [pgo], [tsi], [relative_vol] and [adx] divide averages by averages.  On bars that
    keep moving they forget as fast as the slower of their averages. *)

From Coq Require Import Reals Lra Lia List.
From Verif Require Import Base Num XReal Spec RSpec Bars BaseFacts Smooth Volatility Momentum Trend.
From Verif Require Import SmoothReal SmoothReal2 MomReal VolatReal TrendReal Dispatch Forget ForgetB.
Import ListNotations.
Local Unset Implicit Arguments.
Local Open Scope R_scope.

(** ** The distance from the average in true ranges *)
Lemma part_near x y y' e b r : 0 < b -> b <= y -> b <= y' -> Rabs x <= r -> Rabs (y - y') <= e -> Rabs (x / y - x / y') <= r * e / b ^ 2.
Proof.
  intros Hb By By' Bx D. replace (x / y - x / y') with (x * (y' - y) * / (y * y')) by (field; lra). assert (0 < b * b) by now apply Rmult_lt_0_compat.
  assert (b * b <= y * y') by (apply Rmult_le_compat; lra). rewrite !Rabs_mult, Rabs_inv, (Rabs_right (y * y')) by lra. unfold Rdiv.
  replace (b ^ 2) with (b * b) by ring. apply Rmult_le_compat; [apply Rmult_le_pos; apply Rabs_pos|apply Rlt_le, Rinv_0_lt_compat; lra| |apply Rinv_le_contravar; lra].
  apply Rmult_le_compat; try apply Rabs_pos; [easy|]. now rewrite Rabs_minus_sym.
Qed.
Lemma ewma_late_range h l c p w i : (0 < w <= i)%nat -> ewma_from w 1 (true_range_of (late p h) (late p l) (late p c)) i = ewma_from w 1 (late p (true_range_of h l c)) i.
Proof. intros Hw. apply ewma_from_ext; [lia|lia|]. intros j Hj. apply range_late. lia. Qed.
Theorem pgo_forgets h l c n p w lo hi b : (0 < w)%nat -> (p + w < n)%nat -> 0 < b -> (forall k, (k < n)%nat -> lo <= l k /\ l k + b <= h k <= hi /\ lo <= c k <= hi) ->
  exists o o', pgo (xseries h n) (xseries l n) (xseries c n) w = Ok o /\ pgo (xseries (late p h) (n - p)) (xseries (late p l) (n - p)) (xseries (late p c) (n - p)) w = Ok o' /\
  fades o o' n p w (fun k => ((hi - lo) / b) ^ 2 * ewma_rest w k).
Proof.
  intros Hw Hn Hb H.
  assert (T : forall j, (1 <= j < n)%nat -> b <= true_range_of h l c j <= hi - lo).
  { intros j Hj. pose proof (H j ltac:(lia)) as (? & ? & ?). pose proof (H (j - 1)%nat ltac:(lia)) as (? & ? & ?). unfold true_range_of, Rmax, Rmin. repeat destruct Rle_dec; lra. }
  assert (B : forall i, (w <= i < n)%nat -> b <= ewma_from w 1 (true_range_of h l c) i) by (intros i Hi; apply (ewma_from_bounds w 1 _ i b (hi - lo)); try lia; intros; apply T; lia).
  assert (B' : forall i, (w <= i < n - p)%nat -> b <= ewma_from w 1 (late p (true_range_of h l c)) i) by (intros i Hi; apply (ewma_from_bounds w 1 _ i b (hi - lo)); try lia; intros; apply T; lia).
  destruct (pgo_real h l c n w) as (o & E & A); [lia|intros k Hk; specialize (H k Hk); lra|intros i Hi; specialize (B i Hi); lra|].
  destruct (pgo_real (late p h) (late p l) (late p c) (n - p) w) as (o' & E' & A'); [lia|intros k Hk; specialize (H (p + k)%nat ltac:(lia)); unfold late; lra|intros i Hi; rewrite ewma_late_range by lia; specialize (B' i Hi); lra|].
  exists o, o'. split; [exact E|]. split; [exact E'|]. eapply fade; [exact A|exact A'|lia|lia|]. intros m Hm. cbv beta. clear E A E' A'.
  rewrite ewma_late_range, last_bars_late by lia. unfold late at 1. specialize (B (p + (w + m))%nat ltac:(lia)). specialize (B' (w + m)%nat ltac:(lia)).
  pose proof (ewma_late w 1 p n (true_range_of h l c) 0 (hi - lo) m Hw ltac:(intros j Hj; specialize (T j Hj); lra)) as D.
  replace (1 + w - 1 + m)%nat with (w + m)%nat in D by lia. specialize (D Hm).
  set (y := ewma_from w 1 _ _) in *. set (y' := ewma_from w 1 (late _ _) _) in *. replace (((hi - lo) / b) ^ 2 * ewma_rest w m) with ((hi - lo) * (ewma_rest w m * (hi - lo - 0)) / b ^ 2) by (field; lra).
  apply part_near; try easy. apply in_range; [apply H; lia|]. apply mean_bounds; [unfold last_bars; destruct w; [lia|discriminate]|].
  intros x Hx. apply in_map_iff in Hx. destruct Hx as (k & <- & Hk). apply in_seq in Hk. apply H. lia.
Qed.

(** ** Averages of averages, with two windows *)
Lemma twice a q C (X Y u v : nat -> R) N : 0 <= a <= 1 -> 0 <= C -> 1 - a <= q -> Rabs (X 0%nat - Y 0%nat) <= C ->
  (forall m, (m < N)%nat -> X (S m) = u (S m) * a + X m * (1 - a)) -> (forall m, (m < N)%nat -> Y (S m) = v (S m) * a + Y m * (1 - a)) ->
  (forall m, (m <= N)%nat -> Rabs (u m - v m) <= C * q ^ m) -> forall m, (m <= N)%nat -> Rabs (X m - Y m) <= C * ((1 + INR m * a) * q ^ m).
Proof.
  intros Ha HC Hq H0 HX HY D m. induction m as [|m IH]; intros Hm; [cbn [INR pow]; lra|].
  rewrite HX, HY by lia. specialize (IH ltac:(lia)). specialize (D (S m) Hm). rewrite S_INR. set (k := INR m) in *. assert (0 <= k) by apply pos_INR.
  assert (Q : 0 <= q ^ m) by (apply pow_le; lra). cbn [pow] in *. set (r := q ^ m) in *.
  replace (u (S m) * a + X m * (1 - a) - (v (S m) * a + Y m * (1 - a))) with ((1 - a) * (X m - Y m) + a * (u (S m) - v (S m))) by ring.
  eapply Rle_trans; [apply Rabs_triang|]. rewrite !Rabs_mult, (Rabs_right (1 - a)), (Rabs_right a) by lra.
  assert (P1 : (1 - a) * Rabs (X m - Y m) <= q * (C * ((1 + k * a) * r))) by (apply Rmult_le_compat; try lra; apply Rabs_pos).
  assert (P2 : a * Rabs (u (S m) - v (S m)) <= a * (C * (q * r))) by (apply Rmult_le_compat_l; lra). lra.
Qed.
Lemma ewma_rest_1 w : ewma_rest w 1 = 1 - 2 / (INR w + 1).
Proof. unfold ewma_rest. ring. Qed.
Lemma wilder_rest_1 w : wilder_rest w 1 = 1 - 1 / INR w.
Proof. unfold wilder_rest. ring. Qed.
Lemma ewma_over s k p n F F' lo hi C q : (0 < s)%nat -> 0 <= q <= 1 -> ewma_rest s 1 <= q -> hi - lo <= C ->
  (forall j, (k <= j < n)%nat -> lo <= F j <= hi) -> (forall j, (k <= j < n - p)%nat -> lo <= F' j <= hi) ->
  (forall m, (p + (k + m) < n)%nat -> Rabs (F (p + (k + m))%nat - F' (k + m)%nat) <= C * q ^ m) ->
  forall m, (p + (k + s - 1 + m) < n)%nat -> Rabs (ewma_from s k F (p + (k + s - 1 + m)) - ewma_from s k F' (k + s - 1 + m)) <= C * ((1 + INR m * (2 / (INR s + 1))) * q ^ m).
Proof.
  intros Hs Hq Ha HC B B' D m Hm. pose proof (gain_ewma s Hs) as G. rewrite ewma_rest_1 in Ha. set (a := 2 / (INR s + 1)) in *.
  assert (P : 0 <= C) by (specialize (B (p + (k + s - 1 + m))%nat ltac:(lia)); lra).
  apply (twice a q C (fun m => ewma_from s k F (p + (k + s - 1 + m))) (fun m => ewma_from s k F' (k + s - 1 + m)) (fun m => F (p + (k + s - 1 + m))%nat) (fun m => F' (k + s - 1 + m)%nat) m); try easy; try lra; try lia.
  - eapply Rle_trans; [|exact HC]. apply in_range; apply ewma_from_bounds; try lia; intros; [apply B|apply B']; lia.
  - intros j Hj. replace (p + (k + s - 1 + S j))%nat with (S (p + (k + s - 1 + j))) by lia. apply ewma_from_next; lia.
  - intros j Hj. replace (k + s - 1 + S j)%nat with (S (k + s - 1 + j)) by lia. apply ewma_from_next; lia.
  - intros j Hj. replace (k + s - 1 + j)%nat with (k + (s - 1 + j))%nat by lia. eapply Rle_trans; [apply D; lia|]. apply Rmult_le_compat_l; [exact P|].
    rewrite pow_add. rewrite <- (Rmult_1_l (q ^ j)) at 2. apply Rmult_le_compat_r; [apply pow_le; lra|]. rewrite <- (pow1 (s - 1)). apply pow_incr. lra.
Qed.
Lemma wilder_over s k p n F F' lo hi C q : (0 < s)%nat -> 0 <= q <= 1 -> wilder_rest s 1 <= q -> hi - lo <= C ->
  (forall j, (k <= j < n)%nat -> lo <= F j <= hi) -> (forall j, (k <= j < n - p)%nat -> lo <= F' j <= hi) ->
  (forall m, (p + (k + m) < n)%nat -> Rabs (F (p + (k + m))%nat - F' (k + m)%nat) <= C * q ^ m) ->
  forall m, (p + (k + s - 1 + m) < n)%nat -> Rabs (wilder_from s k F (p + (k + s - 1 + m)) - wilder_from s k F' (k + s - 1 + m)) <= C * ((1 + INR m * (1 / INR s)) * q ^ m).
Proof.
  intros Hs Hq Ha HC B B' D m Hm. pose proof (gain_wilder s Hs) as G. rewrite wilder_rest_1 in Ha. set (a := 1 / INR s) in *.
  assert (P : 0 <= C) by (specialize (B (p + (k + s - 1 + m))%nat ltac:(lia)); lra).
  apply (twice a q C (fun m => wilder_from s k F (p + (k + s - 1 + m))) (fun m => wilder_from s k F' (k + s - 1 + m)) (fun m => F (p + (k + s - 1 + m))%nat) (fun m => F' (k + s - 1 + m)%nat) m); try easy; try lra; try lia.
  - eapply Rle_trans; [|exact HC]. apply in_range; apply wilder_from_bounds; try lia; intros; [apply B|apply B']; lia.
  - intros j Hj. replace (p + (k + s - 1 + S j))%nat with (S (p + (k + s - 1 + j))) by lia. apply wilder_from_next; lia.
  - intros j Hj. replace (k + s - 1 + S j)%nat with (S (k + s - 1 + j)) by lia. apply wilder_from_next; lia.
  - intros j Hj. replace (k + s - 1 + j)%nat with (k + (s - 1 + j))%nat by lia. eapply Rle_trans; [apply D; lia|]. apply Rmult_le_compat_l; [exact P|].
    rewrite pow_add. rewrite <- (Rmult_1_l (q ^ j)) at 2. apply Rmult_le_compat_r; [apply pow_le; lra|]. rewrite <- (pow1 (s - 1)). apply pow_incr. lra.
Qed.

Lemma share_near x y x' y' ex ey b : 0 < b -> b <= y -> b <= y' -> Rabs x' <= y' -> Rabs (x - x') <= ex -> Rabs (y - y') <= ey -> Rabs (x / y - x' / y') <= (ex + ey) / b.
Proof.
  intros Hb By By' Bx Dx Dy. replace (x / y - x' / y') with (((x - x') - x' * / y' * (y - y')) * / y) by (field; lra).
  assert (S : Rabs (x' * / y') <= 1).
  { rewrite Rabs_mult, Rabs_inv, (Rabs_right y') by lra. apply Rmult_le_reg_r with y'; [lra|]. rewrite Rmult_assoc, Rinv_l; lra. }
  rewrite Rabs_mult, Rabs_inv, (Rabs_right y) by lra. unfold Rdiv. apply Rmult_le_compat; [apply Rabs_pos|apply Rlt_le, Rinv_0_lt_compat; lra| |apply Rinv_le_contravar; lra].
  apply abs2; [easy|]. rewrite Rabs_mult. rewrite <- (Rmult_1_l ey). apply Rmult_le_compat; try apply Rabs_pos; easy.
Qed.
Lemma rests_pow a q m : 0 <= 1 - a -> 1 - a <= q -> (1 - a) ^ m <= q ^ m.
Proof. intros. apply pow_incr. lra. Qed.
Section Twofold.
  Context (s l p n : nat) (Hs : (0 < s)%nat) (Hl : (0 < l)%nat).
  Let a := 2 / (INR s + 1).
  Let q := Rmax (1 - a) (1 - 2 / (INR l + 1)).
  Lemma twofold d lo hi m : (forall j, (1 <= j < n)%nat -> lo <= d j <= hi) -> (p + (l + s - 1 + m) < n)%nat ->
    Rabs (ewma_from s l (ewma_from l 1 d) (p + (l + s - 1 + m)) - ewma_from s l (ewma_from l 1 (late p d)) (l + s - 1 + m)) <= (hi - lo) * ((1 + INR m * a) * q ^ m).
  Proof.
    intros B Hm. pose proof (gain_ewma s Hs) as Gs. pose proof (gain_ewma l Hl) as Gl. fold a in Gs. assert (Q1 : 1 - a <= q) by apply Rmax_l. assert (Q2 : 1 - 2 / (INR l + 1) <= q) by apply Rmax_r.
    apply (ewma_over s l p n (ewma_from l 1 d) (ewma_from l 1 (late p d)) lo hi (hi - lo) q); try easy.
    - split; [lra|]. apply Rmax_lub; lra.
    - rewrite ewma_rest_1. exact Q1.
    - lra.
    - intros j Hj. apply ewma_from_bounds; [easy|lia|]. intros; apply B; lia.
    - intros j Hj. apply ewma_from_bounds; [easy|lia|]. intros; apply B; lia.
    - intros j Hj. pose proof (ewma_late l 1 p n d lo hi j Hl B) as L. replace (1 + l - 1 + j)%nat with (l + j)%nat in L by lia. eapply Rle_trans; [apply L; exact Hj|].
      rewrite Rmult_comm. apply Rmult_le_compat_l; [specialize (B (p + (l + j))%nat ltac:(lia)); lra|]. apply rests_pow; lra.
  Qed.
End Twofold.

Lemma realign' (o : list xr) n k na (f g : nat -> xr) : (forall i, (k <= i < n)%nat -> f i = g i) -> aligned o n k na f -> aligned o n k na g.
Proof. intros H. now apply aligned_ext. Qed.
(** The true strength index, where every bar moves by at least [b] and at most [M]. *)
Theorem tsi_forgets f n p s l b M : (0 < s)%nat -> (0 < l)%nat -> (p + (l + s) <= n)%nat -> 0 < b -> (forall k, (0 < k < n)%nat -> b <= Rabs (f k - f (k - 1)%nat) <= M) ->
  let a := 2 / (INR s + 1) in let q := Rmax (1 - a) (1 - 2 / (INR l + 1)) in
  exists o o', tsi (xseries f n) s l = Ok o /\ tsi (xseries (late p f) (n - p)) s l = Ok o' /\
  fades o o' n p (l + s - 1) (fun k => 300 * (M / b) * ((1 + INR k * a) * q ^ k)).
Proof.
  intros Hs Hl Hn Hb H a q. destruct (tsi_real f n s l Hs Hl ltac:(lia)) as (o & E & A & _). destruct (tsi_real (late p f) (n - p) s l Hs Hl ltac:(lia)) as (o' & E' & A' & R').
  exists o, o'. split; [exact E|]. split; [exact E'|]. clear E E'.
  set (d := fun k => f k - f (k - 1)%nat) in *. set (e := fun k => Rabs (d k)) in *.
  assert (Bd : forall j, (1 <= j < n)%nat -> - M <= d j <= M) by (intros j Hj; specialize (H j ltac:(lia)); unfold d; unfold Rabs in H; destruct Rcase_abs; lra).
  assert (Be : forall j, (1 <= j < n)%nat -> b <= e j <= M) by (intros j Hj; apply H; lia).
  assert (Ld : forall i, (l + s - 1 <= i)%nat -> ewma_from s l (ewma_from l 1 (fun k => late p f k - late p f (k - 1)%nat)) i = ewma_from s l (ewma_from l 1 (late p d)) i).
  { intros i Hi. apply ewma_from_ext; [easy|lia|]. intros j Hj. apply ewma_from_ext; [easy|lia|]. intros k Hk. unfold late, d. now replace (p + (k - 1))%nat with (p + k - 1)%nat by lia. }
  assert (Le : forall i, (l + s - 1 <= i)%nat -> ewma_from s l (ewma_from l 1 (fun k => Rabs (late p f k - late p f (k - 1)%nat))) i = ewma_from s l (ewma_from l 1 (late p e)) i).
  { intros i Hi. apply ewma_from_ext; [easy|lia|]. intros j Hj. apply ewma_from_ext; [easy|lia|]. intros k Hk. unfold late, e, d. now replace (p + (k - 1))%nat with (p + k - 1)%nat by lia. }
  assert (Pe : forall i, (l + s - 1 <= i < n)%nat -> b <= ewma_from s l (ewma_from l 1 e) i).
  { intros i Hi. apply (ewma_from_bounds s l _ i b M); [easy|lia|]. intros j Hj. apply ewma_from_bounds; [easy|lia|]. intros x Hx. apply Be. lia. }
  assert (Pe' : forall i, (l + s - 1 <= i < n - p)%nat -> b <= ewma_from s l (ewma_from l 1 (late p e)) i).
  { intros i Hi. apply (ewma_from_bounds s l _ i b M); [easy|lia|]. intros j Hj. apply ewma_from_bounds; [easy|lia|]. intros x Hx. apply Be. lia. }
  assert (Ne : forall i, (l + s - 1 <= i < n)%nat -> ewma_from s l (ewma_from l 1 e) i <> 0) by (intros i Hi; specialize (Pe i Hi); lra).
  assert (Ne' : forall i, (l + s - 1 <= i < n - p)%nat -> ewma_from s l (ewma_from l 1 (late p e)) i <> 0) by (intros i Hi; specialize (Pe' i Hi); lra).
  assert (C : aligned o n (l + s - 1) NaN (fun i => Fin (100 * (ewma_from s l (ewma_from l 1 d) i / ewma_from s l (ewma_from l 1 e) i)))).
  { revert A. apply realign'. intros i Hi. cbv zeta beta. change ((if Req (ewma_from s l (ewma_from l 1 e) i) 0 then NaN else Fin (100 * (ewma_from s l (ewma_from l 1 d) i / ewma_from s l (ewma_from l 1 e) i))) = Fin (100 * (ewma_from s l (ewma_from l 1 d) i / ewma_from s l (ewma_from l 1 e) i))).
    now rewrite (proj2 (Req_false _ 0) (Ne i Hi)). }
  assert (C' : aligned o' (n - p) (l + s - 1) NaN (fun i => Fin (100 * (ewma_from s l (ewma_from l 1 (late p d)) i / ewma_from s l (ewma_from l 1 (late p e)) i)))).
  { revert A'. apply realign'. intros i Hi. cbv zeta beta. rewrite Ld, Le by lia. now rewrite (proj2 (Req_false _ 0) (Ne' i Hi)). }
  eapply fade; [exact C|exact C'|lia|lia|]. intros m Hm. cbv beta. clear A A' C C'.
  pose proof (twofold s l p n Hs Hl d (- M) M m Bd Hm) as Dd. pose proof (twofold s l p n Hs Hl e b M m Be Hm) as De. fold a in Dd, De. fold q in Dd, De.
  specialize (R' (l + s - 1 + m)%nat). rewrite Ld, Le in R' by lia. specialize (R' (Ne' (l + s - 1 + m)%nat ltac:(lia))). specialize (Pe (p + (l + s - 1 + m))%nat ltac:(lia)). specialize (Pe' (l + s - 1 + m)%nat ltac:(lia)).
  set (x := ewma_from s l (ewma_from l 1 d) _) in *. set (y := ewma_from s l (ewma_from l 1 e) _) in *. set (x' := ewma_from s l (ewma_from l 1 (late p d)) _) in *. set (y' := ewma_from s l (ewma_from l 1 (late p e)) _) in *.
  set (t := (1 + INR m * a) * q ^ m) in *. assert (B2 : Rabs x' <= y').
  { replace x' with (x' / y' * y') by (field; lra). rewrite Rabs_mult, (Rabs_right y') by lra. apply Rle_trans with (1 * y'); [|lra]. apply Rmult_le_compat_r; [lra|]. apply Rabs_le. lra. }
  assert (T : 0 <= t) by (pose proof (gain_ewma s Hs) as G; fold a in G; apply Rmult_le_pos; [pose proof (Rmult_le_pos _ _ (pos_INR m) (proj1 G)); lra|]; apply pow_le; eapply Rle_trans; [|apply Rmax_l]; lra).
  rewrite <- Rmult_minus_distr_l. pose proof (share_near x y x' y' _ _ b Hb Pe Pe' B2 Dd De) as Z.
  assert (W : ((M - - M) * t + (M - b) * t) / b <= 3 * (M / b) * t).
  { replace (3 * (M / b) * t) with (((M - - M) * t + (M - b) * t + b * t) / b) by (field; lra). unfold Rdiv. apply Rmult_le_compat_r; [apply Rlt_le, Rinv_0_lt_compat; lra|]. pose proof (Rmult_le_pos b t); lra. }
  replace (300 * (M / b) * t) with (100 * (3 * (M / b) * t)) by ring. apply abs_scale; lra.
Qed.

(** ** Directional movement *)
Lemma plus_late h l p k : (0 < k)%nat -> plus_dm (late p h) (late p l) k = late p (plus_dm h l) k.
Proof. intros Hk. unfold plus_dm, late. now replace (p + (k - 1))%nat with (p + k - 1)%nat by lia. Qed.
Lemma minus_late h l p k : (0 < k)%nat -> minus_dm (late p h) (late p l) k = late p (minus_dm h l) k.
Proof. intros Hk. unfold minus_dm, late. now replace (p + (k - 1))%nat with (p + k - 1)%nat by lia. Qed.
(** The share of one side, whatever it is measured in. *)
Lemma dx_free u d t : t <> 0 -> u + d <> 0 -> 100 * (Rabs (100 * (u / t) - 100 * (d / t)) / (100 * (u / t) + 100 * (d / t))) = 100 * Rabs (2 * (u / (u + d)) - 1) \/ u / t + d / t < 0.
Proof.
  intros Ht Hs. destruct (Rlt_le_dec (u / t + d / t) 0) as [L|L]; [now right|]. left. f_equal. assert (0 <> u / t + d / t).
  { intros Z. apply Hs. replace (u + d) with ((u / t + d / t) * t) by now field. rewrite <- Z. ring. }
  assert (K : forall x y, 0 < y -> Rabs x / y = Rabs (x / y)) by (intros x y Hy; unfold Rdiv; now rewrite Rabs_mult, Rabs_inv, (Rabs_right y) by lra).
  rewrite K by lra. f_equal. field. repeat split; try easy; lra.
Qed.
Lemma dx_near u d u' d' e b : 0 <= u -> 0 <= d -> 0 < b -> b <= u + d -> b <= u' + d' -> Rabs (u - u') <= e -> Rabs (d - d') <= e ->
  Rabs (100 * Rabs (2 * (u / (u + d)) - 1) - 100 * Rabs (2 * (u' / (u' + d')) - 1)) <= 200 * (e / b).
Proof.
  intros. rewrite <- Rmult_minus_distr_l, Rabs_mult, (Rabs_right 100) by lra. replace (200 * (e / b)) with (100 * (2 * (e / b))) by ring. apply Rmult_le_compat_l; [lra|].
  eapply Rle_trans; [apply Rabs_triang_inv2|]. match goal with |- Rabs ?z <= _ => replace z with (2 * (u / (u + d) - u' / (u' + d'))) by ring end. apply abs_scale; [lra|]. now apply strength.
Qed.
Theorem adx_forgets h l c n p w s lo hi b : (0 < w)%nat -> (0 < s)%nat -> (p + (w + s) <= n)%nat -> 0 < b ->
  (forall k, (k < n)%nat -> lo <= l k <= c k /\ c k <= h k <= hi) -> (forall k, (0 < k < n)%nat -> b <= plus_dm h l k + minus_dm h l k) ->
  let a := 1 / INR s in let q := Rmax (1 - a) (1 - 1 / INR w) in
  exists o o', adx (xseries h n) (xseries l n) (xseries c n) w s = Ok o /\ adx (xseries (late p h) (n - p)) (xseries (late p l) (n - p)) (xseries (late p c) (n - p)) w s = Ok o' /\
  fades (map (fun '(x, _, _) => x) o) (map (fun '(x, _, _) => x) o') n p w (fun k => 200 * ((hi - lo) / b) * wilder_rest w k) /\
  fades (map (fun '(_, x, _) => x) o) (map (fun '(_, x, _) => x) o') n p w (fun k => 200 * ((hi - lo) / b) * wilder_rest w k) /\
  fades (map (fun '(_, _, x) => x) o) (map (fun '(_, _, x) => x) o') n p (w + s - 1) (fun k => 200 * ((hi - lo) / b) * ((1 + INR k * a) * q ^ k)).
Proof.
  intros Hw Hs Hn Hb H Hd a q.
  set (U := plus_dm h l) in *. set (D := minus_dm h l) in *. set (T := true_range_of h l c).
  assert (UT : forall j, (1 <= j < n)%nat -> 0 <= U j <= T j) by (intros j Hj; apply plus_dm_bounds; [lia|specialize (H j ltac:(lia)); lra|specialize (H (j - 1)%nat ltac:(lia)); lra]).
  assert (DT : forall j, (1 <= j < n)%nat -> 0 <= D j <= T j) by (intros j Hj; apply minus_dm_bounds; [lia|specialize (H j ltac:(lia)); lra|specialize (H (j - 1)%nat ltac:(lia)); lra]).
  assert (TB : forall j, (1 <= j < n)%nat -> b <= T j <= hi - lo).
  { intros j Hj. split.
    - specialize (Hd j ltac:(lia)). specialize (UT j Hj). specialize (DT j Hj). destruct (dm_exclusive h l j) as [Z|Z]; fold U D in Z; rewrite Z in *; lra.
    - pose proof (H j ltac:(lia)) as (? & ?). pose proof (H (j - 1)%nat ltac:(lia)) as (? & ?). unfold T, true_range_of, Rmax, Rmin. repeat destruct Rle_dec; lra. }
  assert (RB : b <= hi - lo) by (specialize (TB 1%nat ltac:(lia)); lra).
  assert (Wall : forall g x k, (forall j, (1 <= j < k)%nat -> 0 <= g j <= hi - lo) -> (w <= x < k)%nat -> 0 <= wilder_from w 1 g x) by (intros g x k Bg Hx; apply (wilder_from_bounds w 1 g x 0 (hi - lo)); [easy|lia|]; intros; apply Bg; lia).
  assert (TT : forall x, (w <= x < n)%nat -> b <= wilder_from w 1 T x) by (intros x Hx; apply (wilder_from_bounds w 1 T x b (hi - lo)); [easy|lia|]; intros; apply TB; lia).
  assert (TT' : forall x, (w <= x < n - p)%nat -> b <= wilder_from w 1 (late p T) x) by (intros x Hx; apply (wilder_from_bounds w 1 _ x b (hi - lo)); [easy|lia|]; intros; apply TB; lia).
  assert (SS : forall x, (w <= x < n)%nat -> b <= wilder_from w 1 U x + wilder_from w 1 D x).
  { intros x Hx. rewrite wilder_add. apply (wilder_from_bounds w 1 _ x b (2 * (hi - lo))); [easy|lia|]. intros j Hj. specialize (Hd j ltac:(lia)). specialize (UT j ltac:(lia)). specialize (DT j ltac:(lia)). specialize (TB j ltac:(lia)). lra. }
  assert (SS' : forall x, (w <= x < n - p)%nat -> b <= wilder_from w 1 (late p U) x + wilder_from w 1 (late p D) x).
  { intros x Hx. rewrite wilder_add. apply (wilder_from_bounds w 1 _ x b (2 * (hi - lo))); [easy|lia|]. intros j Hj. unfold late. specialize (Hd (p + j)%nat ltac:(lia)). specialize (UT (p + j)%nat ltac:(lia)). specialize (DT (p + j)%nat ltac:(lia)). specialize (TB (p + j)%nat ltac:(lia)). lra. }
  assert (EU : forall x, (w <= x)%nat -> wilder_from w 1 (plus_dm (late p h) (late p l)) x = wilder_from w 1 (late p U) x) by (intros x Hx; apply wilder_ext1; [lia|]; intros; apply plus_late; lia).
  assert (ED : forall x, (w <= x)%nat -> wilder_from w 1 (minus_dm (late p h) (late p l)) x = wilder_from w 1 (late p D) x) by (intros x Hx; apply wilder_ext1; [lia|]; intros; apply minus_late; lia).
  assert (ET : forall x, (w <= x)%nat -> wilder_from w 1 (true_range_of (late p h) (late p l) (late p c)) x = wilder_from w 1 (late p T) x) by (intros x Hx; apply wilder_ext1; [lia|]; intros; apply range_late; lia).
  assert (PosU : forall x, (w <= x < n)%nat -> 0 <= wilder_from w 1 U x) by (intros x Hx; apply (Wall U x n); [|easy]; intros j Hj; specialize (UT j Hj); specialize (TB j Hj); lra).
  assert (PosD : forall x, (w <= x < n)%nat -> 0 <= wilder_from w 1 D x) by (intros x Hx; apply (Wall D x n); [|easy]; intros j Hj; specialize (DT j Hj); specialize (TB j Hj); lra).
  assert (PosU' : forall x, (w <= x < n - p)%nat -> 0 <= wilder_from w 1 (late p U) x) by (intros x Hx; apply (Wall _ x (n - p)%nat); [|easy]; intros j Hj; unfold late; specialize (UT (p + j)%nat ltac:(lia)); specialize (TB (p + j)%nat ltac:(lia)); lra).
  assert (PosD' : forall x, (w <= x < n - p)%nat -> 0 <= wilder_from w 1 (late p D) x) by (intros x Hx; apply (Wall _ x (n - p)%nat); [|easy]; intros j Hj; unfold late; specialize (DT (p + j)%nat ltac:(lia)); specialize (TB (p + j)%nat ltac:(lia)); lra).
  assert (Split : forall u d t, b <= t -> b <= u + d -> t <> 0 /\ 100 * (u / t) + 100 * (d / t) <> 0).
  { intros u d t Ht Hu. split; [lra|]. replace (100 * (u / t) + 100 * (d / t)) with (100 * (u + d) * / t) by (field; lra). apply Rmult_integral_contrapositive_currified; [lra|]. apply Rinv_neq_0_compat. lra. }
  destruct (adx_real h l c n w s Hw Hs ltac:(lia)) as (o & E & A1 & A2 & A3); [intros k Hk; specialize (H k Hk); lra|intros x Hx; unfold di; fold U D T; apply Split; [now apply TT|now apply SS]|].
  destruct (adx_real (late p h) (late p l) (late p c) (n - p) w s Hw Hs ltac:(lia)) as (o' & E' & A1' & A2' & A3'); [intros k Hk; specialize (H (p + k)%nat ltac:(lia)); unfold late; lra|intros x Hx; unfold di; rewrite EU, ED, ET by lia; apply Split; [now apply TT'|now apply SS']|].
  exists o, o'. split; [exact E|]. split; [exact E'|]. clear E E'.
  assert (FU : forall m, (p + (w + m) < n)%nat -> Rabs (wilder_from w 1 U (p + (w + m)) - wilder_from w 1 (late p U) (w + m)) <= wilder_rest w m * (hi - lo)).
  { intros m Hm. pose proof (wilder_late w 1 p n U 0 (hi - lo) m Hw ltac:(intros j Hj; specialize (UT j Hj); specialize (TB j Hj); lra)) as L. replace (1 + w - 1 + m)%nat with (w + m)%nat in L by lia. specialize (L Hm). now rewrite Rminus_0_r in L. }
  assert (FD : forall m, (p + (w + m) < n)%nat -> Rabs (wilder_from w 1 D (p + (w + m)) - wilder_from w 1 (late p D) (w + m)) <= wilder_rest w m * (hi - lo)).
  { intros m Hm. pose proof (wilder_late w 1 p n D 0 (hi - lo) m Hw ltac:(intros j Hj; specialize (DT j Hj); specialize (TB j Hj); lra)) as L. replace (1 + w - 1 + m)%nat with (w + m)%nat in L by lia. specialize (L Hm). now rewrite Rminus_0_r in L. }
  assert (FT : forall m, (p + (w + m) < n)%nat -> Rabs (wilder_from w 1 T (p + (w + m)) - wilder_from w 1 (late p T) (w + m)) <= wilder_rest w m * (hi - lo)).
  { intros m Hm. pose proof (wilder_late w 1 p n T 0 (hi - lo) m Hw ltac:(intros j Hj; specialize (TB j Hj); lra)) as L. replace (1 + w - 1 + m)%nat with (w + m)%nat in L by lia. specialize (L Hm). now rewrite Rminus_0_r in L. }
  split; [|split].
  - eapply fade; [exact A1|exact A1'|lia|lia|]. intros m Hm. cbv beta. unfold di. fold U T. rewrite EU, ET by lia. rewrite <- Rmult_minus_distr_l.
    replace (200 * ((hi - lo) / b) * wilder_rest w m) with (100 * ((wilder_rest w m * (hi - lo) + wilder_rest w m * (hi - lo)) / b)) by (field; lra). apply abs_scale; [lra|].
    apply share_near; auto; try (apply TT; lia); try (apply TT'; lia). rewrite Rabs_right by (apply Rle_ge, PosU'; lia). apply wilder_from_le; [easy| |lia]. intros j Hj. apply UT. lia.
  - eapply fade; [exact A2|exact A2'|lia|lia|]. intros m Hm. cbv beta. unfold di. fold D T. rewrite ED, ET by lia. rewrite <- Rmult_minus_distr_l.
    replace (200 * ((hi - lo) / b) * wilder_rest w m) with (100 * ((wilder_rest w m * (hi - lo) + wilder_rest w m * (hi - lo)) / b)) by (field; lra). apply abs_scale; [lra|].
    apply share_near; auto; try (apply TT; lia); try (apply TT'; lia). rewrite Rabs_right by (apply Rle_ge, PosD'; lia). apply wilder_from_le; [easy| |lia]. intros j Hj. apply DT. lia.
  - eapply fade; [exact A3|exact A3'|lia|lia|]. clear A1 A2 A3 A1' A2' A3'. cbv beta.
    assert (Dx : forall u d t, 0 <= u -> 0 <= d -> b <= t -> b <= u + d -> 100 * (Rabs (100 * (u / t) - 100 * (d / t)) / (100 * (u / t) + 100 * (d / t))) = 100 * Rabs (2 * (u / (u + d)) - 1)).
    { intros u d t Hu Hd' Ht Hud. destruct (dx_free u d t) as [Z|Z]; [lra|lra|exact Z|]. exfalso. assert (0 <= u / t) by (apply Rmult_le_pos; [lra|apply Rlt_le, Rinv_0_lt_compat; lra]). assert (0 <= d / t) by (apply Rmult_le_pos; [lra|apply Rlt_le, Rinv_0_lt_compat; lra]). lra. }
    assert (Dr : forall u d, 0 <= u -> 0 <= d -> b <= u + d -> 0 <= 100 * Rabs (2 * (u / (u + d)) - 1) <= 100).
    { intros u d Hu Hd' Hud. assert (0 <= u / (u + d) <= 1) by (apply part_range; lra). split; [apply Rmult_le_pos; [lra|apply Rabs_pos]|]. assert (Rabs (2 * (u / (u + d)) - 1) <= 1) by (apply Rabs_le; lra). lra. }
    pose proof (gain_wilder s Hs) as Gs. pose proof (gain_wilder w Hw) as Gw. fold a in Gs. assert (Q1 : 1 - a <= q) by apply Rmax_l. assert (Q2 : 1 - 1 / INR w <= q) by apply Rmax_r.
    assert (CB : 1 <= (hi - lo) / b) by (apply Rmult_le_reg_r with b; [lra|]; unfold Rdiv; rewrite Rmult_assoc, Rinv_l; lra).
    unfold di. fold U D T. apply wilder_over with 0 100; try easy.
    + split; [lra|]. apply Rmax_lub; lra.
    + now rewrite wilder_rest_1.
    + lra.
    + intros j Hj. rewrite Dx by (try (apply PosU; lia); try (apply PosD; lia); try (apply TT; lia); apply SS; lia). apply Dr; [apply PosU|apply PosD|apply SS]; lia.
    + intros j Hj. rewrite EU, ED, ET by lia. rewrite Dx by (try (apply PosU'; lia); try (apply PosD'; lia); try (apply TT'; lia); apply SS'; lia). apply Dr; [apply PosU'|apply PosD'|apply SS']; lia.
    + intros m Hm. rewrite EU, ED, ET by lia. rewrite !Dx by (first [apply PosU; lia|apply PosD; lia|apply TT; lia|apply SS; lia|apply PosU'; lia|apply PosD'; lia|apply TT'; lia|apply SS'; lia]).
      apply Rle_trans with (200 * (wilder_rest w m * (hi - lo) / b)).
      * apply dx_near; auto; [apply PosU|apply PosD|apply SS|apply SS']; lia.
      * replace (200 * (wilder_rest w m * (hi - lo) / b)) with (200 * ((hi - lo) / b) * wilder_rest w m) by (field; lra). apply Rmult_le_compat_l; [lra|]. apply rests_pow; lra.
Qed.

(** ** Relative volatility, where the deviation over a window stays between [b] and [M] *)
Lemma wilder_exts w a f g i : (0 < w)%nat -> (a + w - 1 <= i)%nat -> (forall j, (a <= j)%nat -> f j = g j) -> wilder_from w a f i = wilder_from w a g i.
Proof. intros Hw Hi H. unfold wilder_from. f_equal; [f_equal|]; apply map_ext_in; intros j Hj; apply in_seq in Hj; apply H; lia. Qed.
Theorem relative_vol_forgets c n p w sm b M : (2 <= w)%nat -> (0 < sm)%nat -> (p + (w - 1 + sm) <= n)%nat -> 0 < b -> (forall k, (w - 1 <= k < n)%nat -> b <= sqrt (var (last_bars w c k)) <= M) ->
  exists o o', relative_vol (xseries c n) w sm = Ok o /\ relative_vol (xseries (late p c) (n - p)) w sm = Ok o' /\
  fades o o' n p (w + sm - 2) (fun k => 100 * (M / b) * wilder_rest sm k).
Proof.
  intros Hw Hs Hn Hb H. destruct (relative_vol_real c n w sm Hw Hs ltac:(lia)) as (o & E & A). destruct (relative_vol_real (late p c) (n - p) w sm Hw Hs ltac:(lia)) as (o' & E' & A').
  exists o, o'. split; [exact E|]. split; [exact E'|]. clear E E'. set (U := gain_dev w c) in *. set (D := loss_dev w c) in *.
  assert (UM : forall j, (w - 1 <= j < n)%nat -> 0 <= U j <= M) by (intros j Hj; specialize (H j Hj); unfold U, gain_dev; destruct (Rltb _ _); lra).
  assert (DM : forall j, (w - 1 <= j < n)%nat -> 0 <= D j <= M) by (intros j Hj; specialize (H j Hj); unfold D, loss_dev; destruct (Rltb _ _); lra).
  assert (SB : forall j, (w - 1 <= j < n)%nat -> b <= U j + D j <= 2 * M).
  { intros j Hj. split; [|specialize (UM j Hj); specialize (DM j Hj); lra]. specialize (H j Hj). unfold U, D, gain_dev, loss_dev. destruct (Rltb (c j) _) eqn:E1; destruct (Rltb _ (c j)) eqn:E2; try lra. apply Rltb_true in E1, E2. lra. }
  assert (LU : forall i, (w + sm - 2 <= i)%nat -> wilder_from sm (w - 1) (gain_dev w (late p c)) i = wilder_from sm (w - 1) (late p U) i).
  { intros i Hi. apply wilder_exts; [easy|lia|]. intros j Hj. unfold U, gain_dev. rewrite last_bars_late by lia. unfold late. now replace (p + (j - 1))%nat with (p + j - 1)%nat by lia. }
  assert (LD : forall i, (w + sm - 2 <= i)%nat -> wilder_from sm (w - 1) (loss_dev w (late p c)) i = wilder_from sm (w - 1) (late p D) i).
  { intros i Hi. apply wilder_exts; [easy|lia|]. intros j Hj. unfold D, loss_dev. rewrite last_bars_late by lia. unfold late. now replace (p + (j - 1))%nat with (p + j - 1)%nat by lia. }
  assert (SS : forall i, (w + sm - 2 <= i < n)%nat -> b <= wilder_from sm (w - 1) U i + wilder_from sm (w - 1) D i) by (intros i Hi; rewrite wilder_add; apply (wilder_from_bounds sm (w - 1) _ i b (2 * M)); [easy|lia|]; intros; apply SB; lia).
  assert (SS' : forall i, (w + sm - 2 <= i < n - p)%nat -> b <= wilder_from sm (w - 1) (late p U) i + wilder_from sm (w - 1) (late p D) i) by (intros i Hi; rewrite wilder_add; apply (wilder_from_bounds sm (w - 1) _ i b (2 * M)); [easy|lia|]; intros; apply SB; lia).
  assert (C : aligned o n (w + sm - 2) NaN (fun i => Fin (100 * (wilder_from sm (w - 1) U i / (wilder_from sm (w - 1) U i + wilder_from sm (w - 1) D i))))).
  { revert A. apply realign'. intros i Hi. cbv zeta beta. specialize (SS i Hi). rewrite (proj2 (Req_false _ 0)); [reflexivity|lra]. }
  assert (C' : aligned o' (n - p) (w + sm - 2) NaN (fun i => Fin (100 * (wilder_from sm (w - 1) (late p U) i / (wilder_from sm (w - 1) (late p U) i + wilder_from sm (w - 1) (late p D) i))))).
  { revert A'. apply realign'. intros i Hi. cbv zeta beta. rewrite LU, LD by lia. specialize (SS' i Hi). rewrite (proj2 (Req_false _ 0)); [reflexivity|lra]. }
  eapply fade; [exact C|exact C'|lia|lia|]. intros m Hm. cbv beta. clear A A' C C'.
  pose proof (wilder_late sm (w - 1) p n U 0 M m Hs UM) as DU. pose proof (wilder_late sm (w - 1) p n D 0 M m Hs DM) as DD.
  replace (w - 1 + sm - 1 + m)%nat with (w + sm - 2 + m)%nat in DU, DD by lia. specialize (DU Hm). specialize (DD Hm). specialize (SS (p + (w + sm - 2 + m))%nat ltac:(lia)). specialize (SS' (w + sm - 2 + m)%nat ltac:(lia)).
  assert (PU : 0 <= wilder_from sm (w - 1) U (p + (w + sm - 2 + m))) by (apply (wilder_from_bounds sm (w - 1) _ _ 0 M); [easy|lia|]; intros; apply UM; lia).
  assert (PD : 0 <= wilder_from sm (w - 1) D (p + (w + sm - 2 + m))) by (apply (wilder_from_bounds sm (w - 1) _ _ 0 M); [easy|lia|]; intros; apply DM; lia).
  set (u := wilder_from _ _ U _) in *. set (d := wilder_from _ _ D _) in *. set (u' := wilder_from _ _ (late p U) _) in *. set (d' := wilder_from _ _ (late p D) _) in *.
  rewrite <- Rmult_minus_distr_l, Rmult_assoc. apply abs_scale; [lra|]. replace (M / b * wilder_rest sm m) with (wilder_rest sm m * (M - 0) / b) by (field; lra). now apply strength.
Qed.

(** ** Stops that do not forget *)
(** The parabolic stop turns on every bar while the bars stay the same, so a run that
    starts one bar later is on the other side for ever. *)
Theorem psar_forgets_never af mx : 0 < unwrap_or af 0.02 -> exists h l, (forall k, l k < h k) /\
  forall n, (1 < n)%nat -> exists o o',
  psar (xseries h n) (xseries l n) (option_map Fin af) (option_map Fin mx) = Ok o /\ psar (xseries (late 1 h) (n - 1)) (xseries (late 1 l) (n - 1)) (option_map Fin af) (option_map Fin mx) = Ok o' /\
  forall i, (1 <= i)%nat -> (1 + i < n)%nat -> exists x y, nth_error o (1 + i) = Some (Fin x) /\ nth_error o' i = Some (Fin y) /\ Rabs (x - y) = h i - l i.
Proof.
  intros Hinc. exists (fun _ => 1), (fun _ => 0). split; [intros; lra|]. intros n Hn.
  destruct (psar_real (fun _ => 1) (fun _ => 0) n af mx) as (o & st & E & A & S0 & SS); [lia|]. destruct (psar_real (late 1 (fun _ => 1)) (late 1 (fun _ => 0)) (n - 1) af mx) as (o' & st' & E' & A' & S0' & SS'); [lia|].
  exists o, o'. split; [exact E|]. split; [exact E'|]. unfold late in S0', SS'. set (inc := unwrap_or af 0.02) in *. set (m := unwrap_or mx 0.2) in *.
  assert (Z1 : sar_next inc m 1 1 0 0 (inc, false, 1, 0) = (inc, true, 0, 1)) by (unfold sar_next; rewrite (proj2 (Rltb_true _ 1)) by lra; now rewrite Rmin_left by lra).
  assert (Z2 : sar_next inc m 1 1 0 0 (inc, true, 0, 1) = (inc, false, 1, 0)) by (unfold sar_next; rewrite (proj2 (Rltb_true 0 _)) by lra; now rewrite Rmax_left by lra).
  assert (Turn : forall s, s 0%nat = (inc, false, 1, 0) -> (forall i, s (S i) = sar_next inc m 1 1 0 0 (s i)) -> forall i, s i = if Nat.even i then (inc, false, 1, 0) else (inc, true, 0, 1)).
  { intros s E0 ES i. induction i as [|i IH]; [exact E0|]. rewrite ES, IH, Nat.even_succ, <- Nat.negb_even. destruct (Nat.even i); cbn [negb]; [exact Z1|exact Z2]. }
  intros i Hi Hn'. exists (sar_of (st (1 + i)%nat)), (sar_of (st' i)). split; [|split].
  - rewrite (aligned_at _ _ _ _ _ _ A) by lia. reflexivity.
  - rewrite (aligned_at _ _ _ _ _ _ A') by lia. reflexivity.
  - rewrite (Turn st S0 SS), (Turn st' S0' SS'). cbn [plus]. rewrite Nat.even_succ, <- Nat.negb_even. destruct (Nat.even i); cbn [negb sar_of]; unfold Rabs; destruct Rcase_abs; lra.
Qed.
(** The ATR stop after one fall and an unchanged price: the longer run has turned, the
    shorter one has not. *)
Theorem atr_stop_forgets_never w mult : (0 < w)%nat -> let m := unwrap_or mult 3 in 0 < m -> exists h l c p, (forall k, l k <= c k <= h k) /\
  forall n, (p + w < n)%nat -> exists o o',
  atr_stop (xseries h n) (xseries l n) (xseries c n) w (option_map Fin mult) = Ok o /\
  atr_stop (xseries (late p h) (n - p)) (xseries (late p l) (n - p)) (xseries (late p c) (n - p)) w (option_map Fin mult) = Ok o' /\
  forall i, (w <= i)%nat -> (p + i < n)%nat -> exists x y, nth_error o (p + i) = Some (Fin x) /\ nth_error o' i = Some (Fin y) /\ 2 * m <= x - y.
Proof.
  intros Hw m Hm. set (P := 2 * m + 2). set (c := fun k => if (k <=? w)%nat then P else 0).
  set (h := fun k => c k + 1). set (l := fun k => c k - 1). set (p := S w).
  assert (Hc : forall k, (k <= w)%nat -> c k = P) by (intros k Hk; unfold c; destruct (Nat.leb_spec k w); [easy|lia]).
  assert (Lc : forall k, (w < k)%nat -> c k = 0) by (intros k Hk; unfold c; destruct (Nat.leb_spec k w); [lia|easy]).
  assert (T : forall k, (1 <= k)%nat -> 2 <= true_range_of h l c k) by (intros k Hk; unfold true_range_of, h, l, Rmax, Rmin; repeat destruct Rle_dec; lra).
  assert (T1 : forall k, (1 <= k <= w)%nat -> true_range_of h l c k = 2) by (intros k Hk; unfold true_range_of, h, l; rewrite !Hc by lia; unfold Rmax, Rmin; repeat destruct Rle_dec; lra).
  assert (T2 : forall k, (1 <= k)%nat -> true_range_of (late p h) (late p l) (late p c) k = 2) by (intros k Hk; unfold true_range_of, late, h, l; rewrite !Lc by (unfold p; lia); unfold Rmax, Rmin; repeat destruct Rle_dec; lra).
  assert (TM : forall k, (1 <= k)%nat -> true_range_of h l c k <= P + 2) by (intros k Hk; unfold true_range_of, h, l, c, P, Rmax, Rmin; destruct (k <=? w)%nat, (k - 1 <=? w)%nat; repeat destruct Rle_dec; lra).
  exists h, l, c, p. split; [intros k; unfold l, h; lra|]. intros n Hn.
  destruct (atr_stop_real h l c n w mult) as (o & sp & ri & E & A & P0 & R0 & St); [lia|intros k Hk; unfold l, h; lra|].
  destruct (atr_stop_real (late p h) (late p l) (late p c) (n - p) w mult) as (o' & sp' & ri' & E' & A' & P0' & R0' & St'); [lia|intros k Hk; unfold late, l, h; lra|].
  exists o, o'. split; [exact E|]. split; [exact E'|]. clear E E'. cbv zeta in St, St'. fold m in St, St'.
  assert (Wge : forall i, (w <= i)%nat -> 2 <= wilder_from w 1 (true_range_of h l c) i) by (intros i Hi; apply (wilder_from_bounds w 1 _ i 2 (P + 2)); [easy|lia|]; intros j Hj; split; [apply T|apply TM]; lia).
  assert (W0 : wilder_from w 1 (true_range_of h l c) w = 2) by (apply Rle_antisym; apply (wilder_from_bounds w 1 _ w 2 2); try lia; intros j Hj; rewrite T1 by lia; lra).
  assert (W2 : forall i, (w <= i)%nat -> wilder_from w 1 (true_range_of (late p h) (late p l) (late p c)) i = 2) by (intros i Hi; apply Rle_antisym; apply (wilder_from_bounds w 1 _ i 2 2); try lia; intros j Hj; rewrite T2 by lia; lra).
  assert (UP : forall k, ri (S (S w) + k)%nat = false /\ 2 * m <= sp (S (S w) + k)%nat).
  { assert (MW : forall i, (w <= i)%nat -> 2 * m <= m * wilder_from w 1 (true_range_of h l c) i) by (intros i Hi; specialize (Wge i Hi); nra).
    assert (F : ri (S w) = true /\ sp (S w) = 2).
    { pose proof (St w ltac:(lia)) as S1. rewrite R0, P0, W0, (Hc w) in S1 by lia. replace (Rmax 0 (P - m * 2)) with 2 in S1 by (unfold P, Rmax; destruct Rle_dec; lra).
      rewrite (proj2 (Rleb_true 2 P)) in S1 by (unfold P; lra). exact S1. }
    destruct F as [F1 F2]. induction k as [|k [IR IS]].
    - rewrite Nat.add_0_r. pose proof (St (S w) ltac:(lia)) as S1. rewrite F1, F2, (Lc (S w)) in S1 by lia. specialize (MW (S w) ltac:(lia)).
      rewrite (proj2 (Rleb_false _ 0)) in S1 by (pose proof (Rmax_l 2 (0 - m * wilder_from w 1 (true_range_of h l c) (S w))); lra). destruct S1 as [-> ->]. split; [easy|lra].
    - replace (S (S w) + S k)%nat with (S (S (S w) + k)) by lia. pose proof (St (S (S w) + k)%nat ltac:(lia)) as S1. rewrite IR, (Lc (S (S w) + k)%nat) in S1 by lia. specialize (MW (S (S w) + k)%nat ltac:(lia)).
      assert (G : 2 * m <= Rmin (sp (S (S w) + k)%nat) (0 + m * wilder_from w 1 (true_range_of h l c) (S (S w) + k))) by (apply Rmin_glb; lra).
      rewrite (proj2 (Rltb_false _ 0)) in S1 by lra. destruct S1 as [-> ->]. split; [easy|exact G]. }
  assert (DN : forall k, ri' (w + k)%nat = true /\ sp' (w + k)%nat = 0).
  { induction k as [|k [IR IS]]; [rewrite Nat.add_0_r; easy|]. rewrite <- Nat.add_succ_comm. cbn [plus]. pose proof (St' (w + k)%nat ltac:(lia)) as S1. rewrite IR, IS, W2 in S1 by lia.
    replace (late p c (w + k)%nat) with 0 in S1 by (unfold late; rewrite Lc by (unfold p; lia); easy). rewrite Rmax_left in S1 by lra. rewrite (proj2 (Rleb_true 0 0)) in S1 by lra. exact S1. }
  intros i Hi Hp. exists (sp (S (p + i))), 0. split; [|split].
  - now rewrite (aligned_at _ _ _ _ _ _ A) by lia.
  - rewrite (aligned_at _ _ _ _ _ _ A') by lia. destruct (DN (S i - w)%nat) as [_ D]. replace (w + (S i - w))%nat with (S i) in D by lia. now rewrite D.
  - destruct (UP i) as [_ U]. replace (S (p + i)) with (S (S w) + i)%nat by (unfold p; lia). lra.
Qed.
