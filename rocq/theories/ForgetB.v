(** * ForgetB: more of what becomes of the past (C87).

    Six averages on top of one another, the bands and stops built from averages, and the
    relative strength fade like their averages; [supertrend] does not. *)

From Coq Require Import Reals Lra Lia List.
From Verif Require Import Base Num XReal Spec RSpec Bars BaseFacts Smooth Volatility Momentum Trend.
From Verif Require Import SmoothReal SmoothReal2 MomReal VolatReal TrendReal Dispatch Forget.
Import ListNotations.
Local Unset Implicit Arguments.
Local Open Scope R_scope.

(** ** Averages on top of one another *)
(** [k] of them, each starting at the first value of the one below. *)
Fixpoint stack (w k : nat) (f : nat -> R) : nat -> R :=
  match k with O => f | S k => ewma_from w (k * (w - 1)) (stack w k f) end.
(** What is left of the past in a stack of [k], [m] bars after its first value. *)
Fixpoint left_of (a : R) (k : nat) : nat -> R :=
  match k with O => fun _ => 0 | S k' => fix go m := match m with O => 1 | S m' => (1 - a) * go m' + a * left_of a k' m end end.
Lemma left_S a k m : left_of a (S k) (S m) = (1 - a) * left_of a (S k) m + a * left_of a k (S m).
Proof. reflexivity. Qed.
Lemma left_0 a k : left_of a (S k) 0 = 1.
Proof. reflexivity. Qed.
Section Left.
  Context (a : R) (Ha : 0 <= a <= 1).
  Lemma left_pos k m : 0 <= left_of a k m.
  Proof. revert m. induction k as [|k IH]; intros m; [cbn; lra|]. induction m as [|m IHm]; [rewrite left_0; lra|]. rewrite left_S. specialize (IH (S m)). nra. Qed.
  Lemma left_up k m : left_of a k m <= left_of a (S k) m.
  Proof.
    revert m. induction k as [|k IH]; intros m; [apply left_pos|]. induction m as [|m IHm]; [rewrite !left_0; lra|]. rewrite (left_S a (S k) m). specialize (IH (S m)).
    apply Rle_trans with ((1 - a) * left_of a (S k) m + a * left_of a k (S m)); [rewrite left_S; lra|]. apply Rplus_le_compat; apply Rmult_le_compat_l; lra.
  Qed.
  Lemma left_more j k m : left_of a k m <= left_of a (j + k) m.
  Proof. induction j as [|j IH]; [apply Rle_refl|]. cbn [plus]. eapply Rle_trans; [exact IH|apply left_up]. Qed.
  Lemma left_dec k m : left_of a k (S m) <= left_of a k m.
  Proof.
    revert m. induction k as [|k IH]; intros m; [cbn; lra|]. rewrite left_S. specialize (IH m). pose proof (left_up k m).
    assert (a * left_of a k (S m) <= a * left_of a (S k) m) by (apply Rmult_le_compat_l; lra). lra.
  Qed.
  Lemma left_later k m j : left_of a k (j + m) <= left_of a k m.
  Proof. induction j as [|j IH]; [cbn [plus]; lra|]. cbn [plus]. pose proof (left_dec k (j + m)). lra. Qed.
  (** A closed form above it. *)
  Lemma left_le k m : left_of a (S k) m <= (1 + INR m * a) ^ k * (1 - a) ^ m.
  Proof.
    revert m. induction k as [|k IH]; intros m; induction m as [|m IHm].
    - cbn. lra.
    - rewrite left_S. change (left_of a 0 (S m)) with 0. cbn [pow] in *. rewrite Rmult_1_l in *. replace (a * 0) with 0 by ring. rewrite Rplus_0_r. apply Rmult_le_compat_l; [lra|exact IHm].
    - rewrite left_0. cbn [INR]. rewrite Rmult_0_l, Rplus_0_r, pow1. cbn. lra.
    - rewrite left_S. specialize (IH (S m)). pose proof (pos_INR m) as Q.
      set (x := 1 + INR m * a) in *. assert (X : 1 + INR (S m) * a = x + a) by (unfold x; rewrite S_INR; ring). rewrite X in *.
      assert (Px : 1 <= x) by (unfold x; assert (0 <= INR m * a) by (apply Rmult_le_pos; lra); lra).
      assert (R0 : 0 <= (1 - a) ^ m) by (apply pow_le; lra). assert (R1 : 0 <= (1 - a) ^ S m) by (apply pow_le; lra).
      apply Rle_trans with ((1 - a) * (x ^ S k * (1 - a) ^ m) + a * ((x + a) ^ k * (1 - a) ^ S m)).
      + apply Rplus_le_compat; apply Rmult_le_compat_l; lra.
      + assert (M : x ^ k <= (x + a) ^ k) by (apply pow_incr; lra).
        replace ((1 - a) * (x ^ S k * (1 - a) ^ m) + a * ((x + a) ^ k * (1 - a) ^ S m)) with ((x * x ^ k + a * (x + a) ^ k) * (1 - a) ^ S m) by (cbn [pow]; ring).
        apply Rmult_le_compat_r; [exact R1|]. cbn [pow]. assert (x * x ^ k <= x * (x + a) ^ k) by (apply Rmult_le_compat_l; lra). lra.
  Qed.
End Left.

Lemma stack_in w k f n lo hi i : (0 < w)%nat -> (forall j, (j < n)%nat -> lo <= f j <= hi) -> (k * (w - 1) <= i < n)%nat -> lo <= stack w k f i <= hi.
Proof.
  intros Hw H. revert i. induction k as [|k IH]; intros i Hi; [apply H; lia|]. cbn [stack]. apply ewma_from_bounds; [easy|nia|]. intros j Hj. apply IH. lia.
Qed.
Lemma stack_late w p n f lo hi k m : (0 < w)%nat -> (forall j, (j < n)%nat -> lo <= f j <= hi) -> (p + (k * (w - 1) + m) < n)%nat ->
  Rabs (stack w k f (p + (k * (w - 1) + m)) - stack w k (late p f) (k * (w - 1) + m)) <= left_of (2 / (INR w + 1)) k m * (hi - lo).
Proof.
  intros Hw H. pose proof (gain_ewma w Hw) as G. set (a := 2 / (INR w + 1)) in *. revert m. induction k as [|k IHk]; intros m Hm.
  - cbn [stack left_of]. unfold late. rewrite Rmult_0_l. cbn [Nat.mul plus]. replace (f (p + m)%nat - f (p + m)%nat) with 0 by ring. rewrite Rabs_R0. lra.
  - assert (P : 0 <= hi - lo) by (pose proof (H 0%nat (Nat.le_lt_trans _ _ _ (Nat.le_0_l _) Hm)); lra).
    assert (B : forall j, (j < n - p)%nat -> lo <= late p f j <= hi) by (intros j Hj; apply H; lia).
    induction m as [|m IHm].
    + rewrite left_0, Rmult_1_l. apply in_range; [apply stack_in with n|apply stack_in with (n - p)%nat]; auto; lia.
    + specialize (IHm ltac:(lia)). replace (p + (S k * (w - 1) + S m))%nat with (S (p + (S k * (w - 1) + m))) by lia. replace (S k * (w - 1) + S m)%nat with (S (S k * (w - 1) + m)) by lia.
      cbn [stack] in *. rewrite !ewma_from_next by nia. fold a. rewrite left_S.
      assert (D : Rabs (stack w k f (S (p + (S k * (w - 1) + m))) - stack w k (late p f) (S (S k * (w - 1) + m))) <= left_of a k (S m) * (hi - lo)).
      { replace (S (p + (S k * (w - 1) + m))) with (p + (k * (w - 1) + (w - 1 + S m)))%nat by lia. replace (S (S k * (w - 1) + m)) with (k * (w - 1) + (w - 1 + S m))%nat by lia.
        eapply Rle_trans; [apply IHk; lia|]. apply Rmult_le_compat_r; [exact P|]. now apply left_later. }
      set (u := stack w k f _) in *. set (v := stack w k (late p f) _) in *. set (x := ewma_from w _ (stack w k f) _) in *. set (y := ewma_from w _ (stack w k (late p f)) _) in *.
      replace (u * a + x * (1 - a) - (v * a + y * (1 - a))) with ((1 - a) * (x - y) + a * (u - v)) by ring.
      eapply Rle_trans; [apply Rabs_triang|]. rewrite !Rabs_mult, (Rabs_right (1 - a)), (Rabs_right a) by lra. rewrite Rmult_plus_distr_r, !Rmult_assoc. apply Rplus_le_compat; apply Rmult_le_compat_l; lra.
Qed.
Lemma stack_ext w k f g n i : (0 < w)%nat -> (forall j, (j < n)%nat -> f j = g j) -> (k * (w - 1) <= i < n)%nat -> stack w k f i = stack w k g i.
Proof.
  intros Hw H. revert i. induction k as [|k IH]; intros i Hi; [apply H; lia|]. cbn [stack]. apply ewma_from_ext; [easy|nia|]. intros j Hj. apply IH. lia.
Qed.
(** The share of the past in any of the averages up to the sixth, in the end. *)
Lemma stack_share w p n f lo hi k m : (0 < w)%nat -> (forall j, (j < n)%nat -> lo <= f j <= hi) -> (k <= 6)%nat -> (p + (6 * w - 6 + m) < n)%nat ->
  Rabs (stack w k f (p + (6 * w - 6 + m)) - stack w k (late p f) (6 * w - 6 + m)) <= (1 + INR m * (2 / (INR w + 1))) ^ 5 * ewma_rest w m * (hi - lo).
Proof.
  intros Hw H Hk Hm. pose proof (gain_ewma w Hw) as G. pose proof (stack_late w p n f lo hi k ((6 - k) * (w - 1) + m) Hw H) as L.
  replace (k * (w - 1) + ((6 - k) * (w - 1) + m))%nat with (6 * w - 6 + m)%nat in L by nia. specialize (L Hm). unfold ewma_rest. set (a := 2 / (INR w + 1)) in *.
  eapply Rle_trans; [exact L|]. apply Rmult_le_compat_r; [pose proof (H 0%nat ltac:(lia)); lra|].
  eapply Rle_trans; [now apply left_later|]. eapply Rle_trans; [|now apply left_le].
  replace 6%nat with ((6 - k) + k)%nat by lia. now apply left_more.
Qed.
Theorem t3_forgets f n p w factor lo hi : (0 < w)%nat -> (p + (6 * w - 5) <= n)%nat -> (forall k, (k < n)%nat -> lo <= f k <= hi) ->
  let a := 2 / (INR w + 1) in let v := clamp01 (match factor with Some v => v | None => 7 / 10 end) in
  exists o o', t3 (xseries f n) w (option_map Fin factor) = Ok o /\ t3 (xseries (late p f) (n - p)) w (option_map Fin factor) = Ok o' /\
  fades o o' n p (6 * w - 6) (fun k => (1 + 2 * v) ^ 3 * (1 + INR k * a) ^ 5 * ewma_rest w k * (hi - lo)).
Proof.
  intros Hw Hn H a v0. rewrite !xseries_map. destruct (t3_real (series f n) w factor Hw) as (o & E & A); [rewrite series_length; lia|]. destruct (t3_real (series (late p f) (n - p)) w factor Hw) as (o' & E' & A'); [rewrite series_length; lia|].
  exists o, o'. split; [exact E|]. split; [exact E'|]. rewrite series_length in A, A'. cbv zeta in A, A'. fold v0 in A, A'.
  assert (V : 0 <= v0 <= 1) by (unfold v0, clamp01; unfold Rmax, Rmin; repeat destruct Rle_dec; lra).
  assert (T : forall g k, (forall j, (j < k)%nat -> nth j (series g k) 0 = g j)) by (intros g k j Hj; now apply nth_series0).
  eapply fade; [exact A|exact A'|lia|lia|]. intros m Hm. cbv beta. clear E A E' A'.
  set (F := fun j => nth j (series f n) 0). set (G := fun j => nth j (series (late p f) (n - p)) 0).
  assert (D : forall k, (k <= 6)%nat -> Rabs (stack w k F (p + (6 * w - 6 + m)) - stack w k G (6 * w - 6 + m)) <= (1 + INR m * a) ^ 5 * ewma_rest w m * (hi - lo)).
  { intros k Hk. rewrite (stack_ext w k F f n _ Hw (T f n)) by nia. rewrite (stack_ext w k G (late p f) (n - p) _ Hw (T (late p f) (n - p)%nat)) by nia. now apply stack_share with n. }
  pose proof (D 3%nat ltac:(lia)) as D3. pose proof (D 4%nat ltac:(lia)) as D4. pose proof (D 5%nat ltac:(lia)) as D5. pose proof (D 6%nat ltac:(lia)) as D6. clear D.
  cbn [stack] in *. rewrite !Nat.mul_0_l, !Nat.mul_1_l in *. set (e := (1 + INR m * a) ^ 5 * ewma_rest w m * (hi - lo)) in *.
  set (x3 := ewma_from w (2 * (w - 1)) _ (p + _)%nat) in *. set (y3 := ewma_from w (2 * (w - 1)) _ (6 * w - 6 + m)%nat) in *.
  set (x4 := ewma_from w (3 * (w - 1)) _ (p + _)%nat) in *. set (y4 := ewma_from w (3 * (w - 1)) _ (6 * w - 6 + m)%nat) in *.
  set (x5 := ewma_from w (4 * (w - 1)) _ (p + _)%nat) in *. set (y5 := ewma_from w (4 * (w - 1)) _ (6 * w - 6 + m)%nat) in *.
  set (x6 := ewma_from w (5 * (w - 1)) _ (p + _)%nat) in *. set (y6 := ewma_from w (5 * (w - 1)) _ (6 * w - 6 + m)%nat) in *.
  match goal with |- Rabs ?z <= _ => replace z with ((1 + 3 * v0 + 3 * v0 ^ 2 + v0 ^ 3) * (x3 - y3) - ((3 * v0 + 6 * v0 ^ 2 + 3 * v0 ^ 3) * (x4 - y4) - ((3 * v0 ^ 2 + 3 * v0 ^ 3) * (x5 - y5) - v0 ^ 3 * (x6 - y6)))) by ring end.
  replace ((1 + 2 * v0) ^ 3 * (1 + INR m * a) ^ 5 * ewma_rest w m * (hi - lo)) with ((1 + 3 * v0 + 3 * v0 ^ 2 + v0 ^ 3) * e + ((3 * v0 + 6 * v0 ^ 2 + 3 * v0 ^ 3) * e + ((3 * v0 ^ 2 + 3 * v0 ^ 3) * e + v0 ^ 3 * e))) by (unfold e; ring).
  pose proof (pow_le v0 2 (proj1 V)). pose proof (pow_le v0 3 (proj1 V)).
  repeat apply abs2; apply abs_scale; try easy; lra.
Qed.

(** ** Bands and stops *)
Lemma range_late h l c p i : (0 < i)%nat -> true_range_of (late p h) (late p l) (late p c) i = late p (true_range_of h l c) i.
Proof. intros Hi. unfold true_range_of, late. replace (p + (i - 1))%nat with (p + i - 1)%nat by lia. reflexivity. Qed.
Lemma wilder_ext1 w f g i : (0 < w <= i)%nat -> (forall j, (1 <= j)%nat -> f j = g j) -> wilder_from w 1 f i = wilder_from w 1 g i.
Proof. intros Hi H. unfold wilder_from. f_equal; [f_equal|]; apply map_ext_in; intros j Hj; apply in_seq in Hj; apply H; lia. Qed.
Lemma range_fades h l c n p w lo hi m : (0 < w)%nat -> (forall k, (k < n)%nat -> lo <= l k <= h k /\ h k <= hi /\ lo <= c k <= hi) -> (p + (w + m) < n)%nat ->
  Rabs (wilder_from w 1 (true_range_of h l c) (p + (w + m)) - wilder_from w 1 (true_range_of (late p h) (late p l) (late p c)) (w + m)) <= wilder_rest w m * (hi - lo).
Proof.
  intros Hw H Hm. rewrite (wilder_ext1 w (true_range_of (late p h) (late p l) (late p c)) (late p (true_range_of h l c))) by (try lia; intros; now apply range_late).
  replace (hi - lo) with (hi - lo - 0) by ring. pose proof (wilder_late w 1 p n (true_range_of h l c) 0 (hi - lo) m Hw) as L. replace (1 + w - 1 + m)%nat with (w + m)%nat in L by lia. apply L; [|lia].
  intros j Hj. unfold true_range_of. pose proof (H j ltac:(lia)) as (? & ? & ?). pose proof (H (j - 1)%nat ltac:(lia)) as (? & ? & ?).
  unfold Rmax, Rmin. repeat destruct Rle_dec; lra.
Qed.
Theorem keltner_forgets h l c n p w lo hi : (0 < w)%nat -> (p + w < n)%nat -> (forall k, (k < n)%nat -> lo <= l k <= h k /\ h k <= hi /\ lo <= c k <= hi) ->
  exists o o', keltner (xseries h n) (xseries l n) (xseries c n) w = Ok o /\ keltner (xseries (late p h) (n - p)) (xseries (late p l) (n - p)) (xseries (late p c) (n - p)) w = Ok o' /\
  fades (map (fun '(m, _, _) => m) o) (map (fun '(m, _, _) => m) o') n p (w - 1) (fun k => ewma_rest w k * (hi - lo)) /\
  fades (map (fun '(_, u, _) => u) o) (map (fun '(_, u, _) => u) o') n p w (fun k => (ewma_rest w k + 2 * wilder_rest w k) * (hi - lo)) /\
  fades (map (fun '(_, _, b) => b) o) (map (fun '(_, _, b) => b) o') n p w (fun k => (ewma_rest w k + 2 * wilder_rest w k) * (hi - lo)).
Proof.
  intros Hw Hn H. destruct (keltner_real h l c n w) as (o & E & A1 & A2 & A3); [lia|intros k Hk; apply H; lia|].
  destruct (keltner_real (late p h) (late p l) (late p c) (n - p) w) as (o' & E' & A1' & A2' & A3'); [lia|intros k Hk; unfold late; apply H; lia|].
  exists o, o'. split; [exact E|]. split; [exact E'|]. clear E E'.
  assert (B : forall j, (0 <= j < n)%nat -> lo <= c j <= hi) by (intros j Hj; apply H; lia).
  assert (D : forall m, (p + (w + m) < n)%nat -> Rabs (ewma_from w 0 c (p + (w + m)) - ewma_from w 0 (late p c) (w + m)) <= ewma_rest w m * (hi - lo)).
  { intros m Hm. pose proof (ewma_late w 0 p n c lo hi (S m) Hw B) as L. replace (0 + w - 1 + S m)%nat with (w + m)%nat in L by lia. specialize (L Hm).
    eapply Rle_trans; [exact L|]. apply Rmult_le_compat_r; [pose proof (H 0%nat ltac:(lia)); lra|]. apply ewma_rest_le; lia. }
  split; [|split].
  - eapply fade; [exact A1|exact A1'|lia|lia|]. intros m Hm. now apply (ewma_late w 0 p n).
  - eapply fade; [exact A2|exact A2'|lia|lia|]. intros m Hm. cbv beta. specialize (D m Hm). pose proof (range_fades h l c n p w lo hi m Hw H Hm) as T.
    set (x := ewma_from w 0 c _) in *. set (y := ewma_from w 0 (late p c) _) in *. set (u := wilder_from w 1 _ (p + _)%nat) in *. set (v := wilder_from w 1 _ (w + m)%nat) in *.
    replace (x + 2 * u - (y + 2 * v)) with ((x - y) - 2 * (v - u)) by ring. rewrite Rmult_plus_distr_r, Rmult_assoc. apply abs2; [exact D|]. apply abs_scale; [lra|]. now rewrite Rabs_minus_sym.
  - eapply fade; [exact A3|exact A3'|lia|lia|]. intros m Hm. cbv beta. specialize (D m Hm). pose proof (range_fades h l c n p w lo hi m Hw H Hm) as T.
    set (x := ewma_from w 0 c _) in *. set (y := ewma_from w 0 (late p c) _) in *. set (u := wilder_from w 1 _ (p + _)%nat) in *. set (v := wilder_from w 1 _ (w + m)%nat) in *.
    replace (x - 2 * u - (y - 2 * v)) with ((x - y) - 2 * (u - v)) by ring. rewrite Rmult_plus_distr_r, Rmult_assoc. apply abs2; [exact D|]. now apply abs_scale; [lra|].
Qed.
Lemma last_bars_late {A} w p (f : nat -> A) i : (0 < w <= i + 1)%nat -> last_bars w (late p f) i = last_bars w f (p + i).
Proof.
  intros Hi. unfold last_bars. replace (p + i + 1 - w)%nat with (p + (i + 1 - w))%nat by lia. generalize (i + 1 - w)%nat. clear Hi.
  induction w as [|w IH]; intros a; [reflexivity|]. cbn [seq map]. f_equal. rewrite IH. do 2 f_equal. lia.
Qed.
Lemma aligned_of {A B} (g : A -> B) (o : list A) n k na f : aligned o n k na f -> aligned (map g o) n k (g na) (fun i => g (f i)).
Proof.
  intros (L & W & V). split; [now rewrite map_length|]. split.
  - intros i Hi. rewrite nth_error_map, W by easy. reflexivity.
  - intros i Hi. rewrite nth_error_map, V by easy. reflexivity.
Qed.
Theorem chandelier_forgets h l c n p w mult lo hi : (0 < w)%nat -> (p + w < n)%nat -> (forall k, (k < n)%nat -> lo <= l k <= h k /\ h k <= hi /\ lo <= c k <= hi) ->
  let m := unwrap_or mult 3 in
  exists o o', chandelier (xseries h n) (xseries l n) (xseries c n) w (option_map Fin mult) = Ok o /\
  chandelier (xseries (late p h) (n - p)) (xseries (late p l) (n - p)) (xseries (late p c) (n - p)) w (option_map Fin mult) = Ok o' /\
  fades (map fst o) (map fst o') n p w (fun k => Rabs m * wilder_rest w k * (hi - lo)) /\ fades (map snd o) (map snd o') n p w (fun k => Rabs m * wilder_rest w k * (hi - lo)).
Proof.
  intros Hw Hn H mu. destruct (chandelier_real h l c n w mult) as (o & E & A); [lia|intros k Hk; apply H; lia|].
  destruct (chandelier_real (late p h) (late p l) (late p c) (n - p) w mult) as (o' & E' & A'); [lia|intros k Hk; unfold late; apply H; lia|]. fold mu in A, A'.
  exists o, o'. split; [exact E|]. split; [exact E'|]. clear E E'.
  split.
  - eapply fade; [exact (aligned_of fst _ _ _ _ _ A)|exact (aligned_of fst _ _ _ _ _ A')|lia|lia|]. intros m Hm. cbv beta.
    pose proof (range_fades h l c n p w lo hi m Hw H Hm) as T. set (u := wilder_from w 1 _ (p + _)%nat) in *. set (v := wilder_from w 1 _ (w + m)%nat) in *.
    unfold highest. rewrite last_bars_late by lia. match goal with |- Rabs ?z <= _ => replace z with (mu * (v - u)) by ring end.
    rewrite Rabs_mult, Rmult_assoc. apply Rmult_le_compat_l; [apply Rabs_pos|]. now rewrite Rabs_minus_sym.
  - eapply fade; [exact (aligned_of snd _ _ _ _ _ A)|exact (aligned_of snd _ _ _ _ _ A')|lia|lia|]. intros m Hm. cbv beta.
    pose proof (range_fades h l c n p w lo hi m Hw H Hm) as T. set (u := wilder_from w 1 _ (p + _)%nat) in *. set (v := wilder_from w 1 _ (w + m)%nat) in *.
    unfold lowest. rewrite last_bars_late by lia. match goal with |- Rabs ?z <= _ => replace z with (mu * (u - v)) by ring end.
    rewrite Rabs_mult, Rmult_assoc. apply Rmult_le_compat_l; [apply Rabs_pos|]. exact T.
Qed.

(** ** Ratios *)
Lemma ratio_near x y x' y' ex ey lo hi : 0 < lo -> lo <= y -> lo <= x' <= hi -> lo <= y' -> Rabs (x - x') <= ex -> Rabs (y - y') <= ey ->
  Rabs ((x - x') / y - (y - y') * (x' / (y * y'))) <= ex / lo + ey * (hi / (lo * lo)).
Proof.
  intros L0 By Bx' By' Dx Dy. apply abs2; unfold Rdiv at 1; rewrite Rabs_mult.
  - rewrite Rabs_inv, (Rabs_right y) by lra. apply Rmult_le_compat; [apply Rabs_pos|apply Rlt_le, Rinv_0_lt_compat; lra|exact Dx|]. apply Rinv_le_contravar; lra.
  - assert (0 < lo * lo) by now apply Rmult_lt_0_compat. assert (lo * lo <= y * y') by (apply Rmult_le_compat; lra).
    rewrite Rabs_mult, Rabs_inv, (Rabs_right x'), (Rabs_right (y * y')) by lra. apply Rmult_le_compat; [apply Rabs_pos| |exact Dy|].
    + apply Rmult_le_pos; [lra|]. apply Rlt_le, Rinv_0_lt_compat. lra.
    + apply Rmult_le_compat; [lra|apply Rlt_le, Rinv_0_lt_compat; lra|lra|]. apply Rinv_le_contravar; lra.
Qed.
Theorem ppo_forgets f n p s l lo hi : (0 < s <= l)%nat -> (p + l <= n)%nat -> 0 < lo -> (forall k, (k < n)%nat -> lo <= f k <= hi) ->
  exists o o', ppo (xseries f n) s l = Ok o /\ ppo (xseries (late p f) (n - p)) s l = Ok o' /\
  fades o o' n p (l - 1) (fun k => 100 * (ewma_rest s k / lo + ewma_rest l k * hi / lo ^ 2) * (hi - lo)).
Proof.
  intros Hs Hn L0 H.
  assert (B : forall w i, (0 < w)%nat -> (w - 1 <= i < n)%nat -> lo <= ewma_from w 0 f i <= hi) by (intros w i Hw Hi; apply ewma_from_bounds; try lia; intros; apply H; lia).
  assert (B' : forall w i, (0 < w)%nat -> (w - 1 <= i < n - p)%nat -> lo <= ewma_from w 0 (late p f) i <= hi) by (intros w i Hw Hi; apply ewma_from_bounds; try lia; intros; apply H; lia).
  destruct (ppo_real f n s l) as (o & E & A); [lia|lia|intros i Hi; pose proof (B l i ltac:(lia) ltac:(lia)); lra|].
  destruct (ppo_real (late p f) (n - p) s l) as (o' & E' & A'); [lia|lia|intros i Hi; pose proof (B' l i ltac:(lia) ltac:(lia)); lra|].
  exists o, o'. split; [exact E|]. split; [exact E'|]. eapply fade; [exact A|exact A'|lia|lia|]. intros m Hm. cbv beta. clear E A E' A'.
  assert (P : 0 <= hi - lo) by (pose proof (H 0%nat ltac:(lia)); lra). assert (R0 : forall j, (0 <= j < n)%nat -> lo <= f j <= hi) by (intros; apply H; lia).
  pose proof (ewma_late s 0 p n f lo hi (l - s + m) ltac:(lia) R0) as Ds. replace (0 + s - 1 + (l - s + m))%nat with (l - 1 + m)%nat in Ds by lia. specialize (Ds Hm).
  pose proof (ewma_late l 0 p n f lo hi m ltac:(lia) R0 Hm) as Dl. cbn [plus] in Dl.
  assert (Ds' : Rabs (ewma_from s 0 f (p + (l - 1 + m)) - ewma_from s 0 (late p f) (l - 1 + m)) <= ewma_rest s m * (hi - lo)) by (eapply Rle_trans; [exact Ds|]; apply Rmult_le_compat_r; [easy|apply ewma_rest_le; lia]).
  clear Ds. pose proof (B l (p + (l - 1 + m))%nat ltac:(lia) ltac:(lia)) as By. pose proof (B' s (l - 1 + m)%nat ltac:(lia) ltac:(lia)) as Bx'. pose proof (B' l (l - 1 + m)%nat ltac:(lia) ltac:(lia)) as By'.
  set (x := ewma_from s 0 f _) in *. set (y := ewma_from l 0 f _) in *. set (x' := ewma_from s 0 (late p f) _) in *. set (y' := ewma_from l 0 (late p f) _) in *.
  set (es := ewma_rest s m * (hi - lo)) in *. set (el := ewma_rest l m * (hi - lo)) in *. assert (0 <= es) by (eapply Rle_trans; [apply Rabs_pos|exact Ds']). assert (0 <= el) by (eapply Rle_trans; [apply Rabs_pos|exact Dl]).
  replace (100 * (ewma_rest s m / lo + ewma_rest l m * hi / lo ^ 2) * (hi - lo)) with (100 * (es / lo + el * (hi / (lo * lo)))) by (unfold es, el; field; lra).
  replace (100 * ((x - y) / y) - 100 * ((x' - y') / y')) with (100 * ((x - x') / y - (y - y') * (x' / (y * y')))) by (field; lra).
  apply abs_scale; [lra|]. now apply ratio_near.
Qed.

(** The rate of change of three averages on top of one another. *)
Theorem trix_forgets f n p w lo hi : (0 < w)%nat -> (p + (3 * (w - 1) + 1) < n)%nat -> 0 < lo -> (forall k, (k < n)%nat -> lo <= f k <= hi) ->
  let a := 2 / (INR w + 1) in
  exists o o', trix (xseries f n) w = Ok o /\ trix (xseries (late p f) (n - p)) w = Ok o' /\
  fades o o' n p (3 * (w - 1) + 1) (fun k => 100 * (1 / lo + hi / lo ^ 2) * ((1 + INR k * a) ^ 2 * ewma_rest w k) * (hi - lo)).
Proof.
  intros Hw Hn L0 H a. pose proof (gain_ewma w Hw) as G. fold a in G. assert (P : 0 <= hi - lo) by (pose proof (H 0%nat ltac:(lia)); lra).
  assert (B : forall i, (3 * (w - 1) <= i < n)%nat -> lo <= stack w 3 f i <= hi) by (intros i Hi; now apply stack_in with n).
  assert (B' : forall i, (3 * (w - 1) <= i < n - p)%nat -> lo <= stack w 3 (late p f) i <= hi) by (intros i Hi; apply stack_in with (n - p)%nat; [easy| |easy]; intros j Hj; apply H; lia).
  assert (D : forall j k, (k <= j)%nat -> (p + (3 * (w - 1) + j) < n)%nat -> Rabs (stack w 3 f (p + (3 * (w - 1) + j)) - stack w 3 (late p f) (3 * (w - 1) + j)) <= (1 + INR k * a) ^ 2 * ewma_rest w k * (hi - lo)).
  { intros j k Hk Hj. eapply Rle_trans; [apply (stack_late w p n f lo hi 3 j Hw H Hj)|]. fold a. apply Rmult_le_compat_r; [exact P|]. replace j with ((j - k) + k)%nat by lia.
    eapply Rle_trans; [now apply left_later|]. unfold ewma_rest. fold a. now apply left_le. }
  assert (Z : forall g k, (forall i, (3 * (w - 1) <= i < k)%nat -> lo <= stack w 3 g i <= hi) -> (3 * (w - 1) < k)%nat -> forall i, (i < k)%nat -> stack w 3 g i <> 0).
  { intros g k Bg Hk i Hi. destruct (le_lt_dec (3 * (w - 1)) i) as [C|C]; [specialize (Bg i ltac:(lia)); lra|]. specialize (Bg (3 * (w - 1))%nat ltac:(lia)).
    cbn [stack] in *. unfold ewma_from at 1 in Bg. unfold ewma_from at 1. replace (i + 1 - (2 * (w - 1) + w))%nat with 0%nat by lia.
    replace (3 * (w - 1) + 1 - (2 * (w - 1) + w))%nat with 0%nat in Bg by lia. intros Z. rewrite Z in Bg. lra. }
  pose proof (Z f n B ltac:(lia)) as Zf. pose proof (Z (late p f) (n - p)%nat B' ltac:(lia)) as Zg. clear Z. cbn [stack] in Zf, Zg. rewrite !Nat.mul_0_l, !Nat.mul_1_l in Zf, Zg.
  destruct (trix_real f n w Hw ltac:(lia) Zf) as (o & E & A). destruct (trix_real (late p f) (n - p) w Hw ltac:(lia) Zg) as (o' & E' & A').
  exists o, o'. split; [exact E|]. split; [exact E'|]. clear E E' Zf Zg. eapply fade; [exact A|exact A'|lia|lia|]. intros m Hm. cbv beta. clear A A'.
  pose proof (D (S m) m ltac:(lia) ltac:(lia)) as D1. pose proof (D m m ltac:(lia) ltac:(lia)) as D0. clear D.
  replace (3 * (w - 1) + 1 + m)%nat with (3 * (w - 1) + S m)%nat in * by lia.
  replace (p + (3 * (w - 1) + S m) - 1)%nat with (p + (3 * (w - 1) + m))%nat by lia. replace (3 * (w - 1) + S m - 1)%nat with (3 * (w - 1) + m)%nat by lia.
  pose proof (B (p + (3 * (w - 1) + m))%nat ltac:(lia)) as By. pose proof (B' (3 * (w - 1) + S m)%nat ltac:(lia)) as Bx'. pose proof (B' (3 * (w - 1) + m)%nat ltac:(lia)) as By'. clear B B'.
  cbn [stack] in *. rewrite !Nat.mul_0_l, !Nat.mul_1_l in *.
  set (x := ewma_from w _ _ (p + (_ + S m))%nat) in *. set (y := ewma_from w _ _ (p + (_ + m))%nat) in *. set (x' := ewma_from w _ _ (_ + S m)%nat) in *. set (y' := ewma_from w _ _ (_ + m)%nat) in *.
  set (e := (1 + INR m * a) ^ 2 * ewma_rest w m * (hi - lo)) in *. assert (0 <= e) by (eapply Rle_trans; [apply Rabs_pos|exact D0]).
  replace (100 * (1 / lo + hi / lo ^ 2) * ((1 + INR m * a) ^ 2 * ewma_rest w m) * (hi - lo)) with (100 * (e / lo + e * (hi / (lo * lo)))) by (unfold e; field; lra).
  replace (100 * ((x - y) / y) - 100 * ((x' - y') / y')) with (100 * ((x - x') / y - (y - y') * (x' / (y * y')))) by (field; lra).
  apply abs_scale; [lra|]. now apply ratio_near.
Qed.

(** Relative strength, where every bar moves by at least [b] and at most [M]. *)
Lemma strength u d u' d' e b : 0 <= u -> 0 <= d -> 0 < b -> b <= u + d -> b <= u' + d' -> Rabs (u - u') <= e -> Rabs (d - d') <= e ->
  Rabs (u / (u + d) - u' / (u' + d')) <= e / b.
Proof.
  intros Hu Hd Hb S S' Du Dd. replace (u / (u + d) - u' / (u' + d')) with ((d * (u - u') - u * (d - d')) / ((u + d) * (u' + d'))) by (field; lra).
  assert (0 < (u + d) * (u' + d')) by (apply Rmult_lt_0_compat; lra). assert (0 <= e) by (eapply Rle_trans; [apply Rabs_pos|exact Du]).
  unfold Rdiv. rewrite Rabs_mult, Rabs_inv, (Rabs_right ((u + d) * (u' + d'))) by lra.
  apply Rmult_le_reg_r with ((u + d) * (u' + d')); [lra|]. rewrite Rmult_assoc, Rinv_l, Rmult_1_r by lra.
  apply Rle_trans with ((u + d) * e).
  - replace ((u + d) * e) with (d * e + u * e) by ring. apply abs2; now apply abs_scale.
  - replace (e * / b * ((u + d) * (u' + d'))) with ((u + d) * e * ((u' + d') * / b)) by ring. rewrite <- (Rmult_1_r ((u + d) * e)) at 1. apply Rmult_le_compat_l; [apply Rmult_le_pos; lra|].
    apply Rmult_le_reg_r with b; [lra|]. rewrite Rmult_assoc, Rinv_l; lra.
Qed.
Lemma ema_add g a b l m : length l = length m -> ema g a l + ema g b m = ema g (a + b) (map (fun p => fst p + snd p) (combine l m)).
Proof.
  unfold ema. revert a b m. induction l as [|x l IH]; intros a b [|y m] L; cbn [length] in L; try lia; [reflexivity|]. cbn [fold_left combine map fst snd].
  rewrite IH by lia. f_equal. lra.
Qed.
Lemma combine_same {A B C} (f : A -> B) (g : A -> C) l : combine (map f l) (map g l) = map (fun x => (f x, g x)) l.
Proof. induction l as [|x l IH]; cbn; [easy|now rewrite IH]. Qed.
Lemma wilder_add w a f g i : wilder_from w a f i + wilder_from w a g i = wilder_from w a (fun k => f k + g k) i.
Proof.
  unfold wilder_from. rewrite ema_add by now rewrite !map_length. rewrite combine_same, map_map. f_equal. unfold mean. rewrite !map_length.
  unfold Rdiv. rewrite <- Rmult_plus_distr_r. f_equal. generalize (seq a (w - 1)). induction l as [|x l IH]; cbn [map]; rewrite ?Rsum_nil, ?Rsum_cons; lra.
Qed.
Theorem rsi_forgets f n p w b M : (0 < w)%nat -> (p + w < n)%nat -> 0 < b -> (forall k, (0 < k < n)%nat -> b <= Rabs (f k - f (k - 1)%nat) <= M) ->
  exists o o', rsi (xseries f n) w = Ok o /\ rsi (xseries (late p f) (n - p)) w = Ok o' /\
  fades o o' n p w (fun k => 100 * (M / b) * wilder_rest w k).
Proof.
  intros Hw Hn Hb H. destruct (rsi_real f n w) as (o & E & A); [lia|]. destruct (rsi_real (late p f) (n - p) w) as (o' & E' & A'); [lia|].
  exists o, o'. split; [exact E|]. split; [exact E'|]. clear E E'.
  assert (LU : forall i, (w <= i)%nat -> wilder_from w 1 (up_move (late p f)) i = wilder_from w 1 (late p (up_move f)) i) by (intros i Hi; apply wilder_ext1; [lia|]; intros j Hj; unfold up_move, late; now replace (p + (j - 1))%nat with (p + j - 1)%nat by lia).
  assert (LD : forall i, (w <= i)%nat -> wilder_from w 1 (down_move (late p f)) i = wilder_from w 1 (late p (down_move f)) i) by (intros i Hi; apply wilder_ext1; [lia|]; intros j Hj; unfold down_move, late; now replace (p + (j - 1))%nat with (p + j - 1)%nat by lia).
  assert (UM : forall j, (1 <= j < n)%nat -> 0 <= up_move f j <= M) by (intros j Hj; specialize (H j ltac:(lia)); unfold up_move, Rmax, Rabs in *; destruct Rle_dec, Rcase_abs; lra).
  assert (DM : forall j, (1 <= j < n)%nat -> 0 <= down_move f j <= M) by (intros j Hj; specialize (H j ltac:(lia)); unfold down_move, Rmax, Rabs in *; destruct Rle_dec, Rcase_abs; lra).
  assert (SM : forall i, (w <= i < n)%nat -> b <= wilder_from w 1 (up_move f) i + wilder_from w 1 (down_move f) i).
  { intros i Hi. rewrite wilder_add. apply (wilder_from_bounds w 1 _ i b M); [easy|lia|]. intros j Hj. specialize (H j ltac:(lia)). unfold up_move, down_move, Rmax, Rabs in *. repeat destruct Rle_dec; destruct Rcase_abs; lra. }
  assert (SM' : forall i, (w <= i < n - p)%nat -> b <= wilder_from w 1 (late p (up_move f)) i + wilder_from w 1 (late p (down_move f)) i).
  { intros i Hi. rewrite wilder_add. apply (wilder_from_bounds w 1 _ i b M); [easy|lia|]. intros j Hj. unfold late. specialize (H (p + j)%nat ltac:(lia)). unfold up_move, down_move, Rmax, Rabs in *. repeat destruct Rle_dec; destruct Rcase_abs; lra. }
  assert (SN : forall i, (w <= i < n)%nat -> wilder_from w 1 (up_move f) i + wilder_from w 1 (down_move f) i <> 0) by (intros i Hi; specialize (SM i Hi); lra).
  assert (SN' : forall i, (w <= i < n - p)%nat -> wilder_from w 1 (late p (up_move f)) i + wilder_from w 1 (late p (down_move f)) i <> 0) by (intros i Hi; specialize (SM' i Hi); lra).
  eapply realign in A; [|intros i Hi; cbv zeta; rewrite (proj2 (Req_false _ 0) (SN i Hi)); reflexivity].
  eapply realign in A'; [|intros i Hi; cbv zeta; rewrite LU, LD by lia; rewrite (proj2 (Req_false _ 0) (SN' i Hi)); reflexivity].
  eapply fade; [exact A|exact A'|lia|lia|]. intros m Hm. cbv beta.
  pose proof (wilder_late w 1 p n (up_move f) 0 M m Hw UM) as DU. pose proof (wilder_late w 1 p n (down_move f) 0 M m Hw DM) as DD.
  replace (1 + w - 1 + m)%nat with (w + m)%nat in DU, DD by lia. specialize (DU Hm). specialize (DD Hm). specialize (SM (p + (w + m))%nat ltac:(lia)). specialize (SM' (w + m)%nat ltac:(lia)).
  assert (PU : 0 <= wilder_from w 1 (up_move f) (p + (w + m))) by (apply (wilder_from_bounds w 1 _ _ 0 M); [easy|lia|]; intros; apply UM; lia).
  assert (PD : 0 <= wilder_from w 1 (down_move f) (p + (w + m))) by (apply (wilder_from_bounds w 1 _ _ 0 M); [easy|lia|]; intros; apply DM; lia).
  set (u := wilder_from w 1 (up_move f) _) in *. set (d := wilder_from w 1 (down_move f) _) in *. set (u' := wilder_from w 1 (late p _) _) in *. set (d' := wilder_from w 1 (late p _) _) in *.
  rewrite <- Rmult_minus_distr_l, Rmult_assoc. apply abs_scale; [lra|]. replace (M / b * wilder_rest w m) with (wilder_rest w m * (M - 0) / b) by (field; lra). now apply strength.
Qed.

(** ** A stop that does not forget *)
(** Prices that fall once and stay put afterwards: the longer run has turned down and
    prints the upper band forever, the shorter one has never turned and prints the lower
    band.  All prices lie within the one fall, and every bar after it is the same. *)
Theorem supertrend_forgets_never w m : (0 < w)%nat -> 0 < m -> exists h l c p, (forall k, l k <= c k <= h k) /\
  forall n, (p + w < n)%nat -> exists o o',
  supertrend (xseries h n) (xseries l n) (xseries c n) w (Fin m) = Ok o /\
  supertrend (xseries (late p h) (n - p)) (xseries (late p l) (n - p)) (xseries (late p c) (n - p)) w (Fin m) = Ok o' /\
  forall i, (w <= i)%nat -> (p + i < n)%nat -> exists x y, nth_error o (p + i) = Some (Fin x) /\ nth_error o' i = Some (Fin y) /\ 4 * m <= x - y.
Proof.
  intros Hw Hm. set (P := 2 * m + 2). set (c := fun k => if (k <=? w)%nat then P else 0).
  set (h := fun k => c k + 1). set (l := fun k => c k - 1). set (p := S w).
  assert (Hc : forall k, (k <= w)%nat -> c k = P) by (intros k Hk; unfold c; destruct (Nat.leb_spec k w); [easy|lia]).
  assert (Lc : forall k, (w < k)%nat -> c k = 0) by (intros k Hk; unfold c; destruct (Nat.leb_spec k w); [lia|easy]).
  assert (T : forall k, (1 <= k)%nat -> 2 <= true_range_of h l c k) by (intros k Hk; unfold true_range_of, h, l, Rmax, Rmin; repeat destruct Rle_dec; lra).
  assert (T1 : forall k, (1 <= k <= w)%nat -> true_range_of h l c k = 2) by (intros k Hk; unfold true_range_of, h, l; rewrite !Hc by lia; unfold Rmax, Rmin; repeat destruct Rle_dec; lra).
  assert (T2 : forall k, (1 <= k)%nat -> true_range_of (late p h) (late p l) (late p c) k = 2) by (intros k Hk; unfold true_range_of, late, h, l; rewrite !Lc by (unfold p; lia); unfold Rmax, Rmin; repeat destruct Rle_dec; lra).
  assert (TM : forall k, (1 <= k)%nat -> true_range_of h l c k <= P + 2) by (intros k Hk; unfold true_range_of, h, l, c, P, Rmax, Rmin; destruct (k <=? w)%nat, (k - 1 <=? w)%nat; repeat destruct Rle_dec; lra).
  exists h, l, c, p. split; [intros k; unfold l, h; lra|]. intros n Hn.
  destruct (supertrend_real h l c n w m) as (o & lo & up & ri & E & A & L0 & U0 & R0 & St); [lia|intros k Hk; unfold l, h; lra|].
  destruct (supertrend_real (late p h) (late p l) (late p c) (n - p) w m) as (o' & lo' & up' & ri' & E' & A' & L0' & U0' & R0' & St'); [lia|intros k Hk; unfold late, l, h; lra|].
  exists o, o'. split; [exact E|]. split; [exact E'|]. clear E E'.
  assert (Wge : forall i, (w <= i)%nat -> 2 <= wilder_from w 1 (true_range_of h l c) i) by (intros i Hi; apply (wilder_from_bounds w 1 _ i 2 (P + 2)); [easy|lia|]; intros j Hj; split; [apply T|apply TM]; lia).
  assert (W0 : wilder_from w 1 (true_range_of h l c) w = 2) by (apply Rle_antisym; apply (wilder_from_bounds w 1 _ w 2 2); try lia; intros j Hj; rewrite T1 by lia; lra).
  assert (W2 : forall i, (w <= i)%nat -> wilder_from w 1 (true_range_of (late p h) (late p l) (late p c)) i = 2) by (intros i Hi; apply Rle_antisym; apply (wilder_from_bounds w 1 _ i 2 2); try lia; intros j Hj; rewrite T2 by lia; lra).
  assert (UP : forall k, ri (S w + k)%nat = false /\ 2 * m <= up (S w + k)%nat).
  { assert (BU : forall i, (w <= i)%nat -> 2 * m <= (h (S i) + l (S i)) / 2 + m * wilder_from w 1 (true_range_of h l c) (S i)).
    { intros i Hi. unfold h at 1, l at 1. rewrite Lc by lia. specialize (Wge (S i) ltac:(lia)). nra. }
    unfold h, l in L0, U0. rewrite Hc in L0, U0 by lia. fold h l in L0, U0. rewrite W0 in L0, U0.
    induction k as [|k [IR IU]].
    - rewrite Nat.add_0_r. destruct (St w ltac:(lia)) as (_ & SU & SR). specialize (BU w ltac:(lia)). rewrite SU, SR, U0, L0. rewrite (Hc w), (Lc (S w)) by lia.
      rewrite (proj2 (Rltb_true P _)) by lra. rewrite (proj2 (Rltb_false _ 0)) by (unfold P; lra). rewrite (proj2 (Rltb_true 0 _)) by (unfold P; lra). split; [easy|].
      apply Rmin_glb; [unfold P; lra|exact BU].
    - replace (S w + S k)%nat with (S (S w + k)) by lia. destruct (St (S w + k)%nat ltac:(lia)) as (_ & SU & SR). specialize (BU (S w + k)%nat ltac:(lia)). rewrite SU, SR. rewrite !Lc by lia. rewrite IR.
      rewrite (proj2 (Rltb_false _ 0)) by lra. rewrite (proj2 (Rltb_true 0 (up _))) by lra. split; [destruct (Rltb 0 (lo _)); reflexivity|]. apply Rmin_glb; [easy|exact BU]. }
  assert (DN : forall k, ri' (w + k)%nat = true /\ lo' (w + k)%nat = - (2 * m) /\ up' (w + k)%nat = 2 * m).
  { assert (Z : forall i, late p h i = 1 /\ late p l i = -1 /\ late p c i = 0) by (intros i; unfold late, h, l; rewrite !Lc by (unfold p; lia); lra).
    destruct (Z w) as (Zh & Zl & _). rewrite Zh, Zl, W2 in L0', U0' by lia.
    induction k as [|k (IR & IL & IU)].
    - rewrite Nat.add_0_r, L0', U0'. split; [easy|]. lra.
    - rewrite <- Nat.add_succ_comm. cbn [plus]. destruct (St' (w + k)%nat ltac:(lia)) as (SL & SU & SR). destruct (Z (S (w + k))) as (Zh' & Zl' & Zc'). destruct (Z (w + k)%nat) as (_ & _ & Zc). rewrite SL, SU, SR, IR, IL, IU, Zc, Zc', Zh', Zl', W2 by lia.
      rewrite (proj2 (Rltb_true (- (2 * m)) 0)), (proj2 (Rltb_true 0 (2 * m))), (proj2 (Rltb_false (2 * m) 0)), (proj2 (Rltb_false 0 (- (2 * m)))) by lra.
      split; [easy|]. split; unfold Rmax, Rmin; destruct Rle_dec; lra. }
  intros i Hi Hp. exists (up (p + i)%nat), (- (2 * m)). split; [|split].
  - rewrite (aligned_at _ _ _ _ _ _ A) by lia. change (p + i)%nat with (S w + i)%nat. destruct (UP i) as [-> _]. reflexivity.
  - rewrite (aligned_at _ _ _ _ _ _ A') by lia. destruct (DN (i - w)%nat) as (R & L & _). replace (w + (i - w))%nat with i in * by lia. now rewrite R, L.
  - destruct (UP i) as [_ U]. change (p + i)%nat with (S w + i)%nat. lra.
Qed.
