(** * Limits: the range of the prices limits the range of the indicators (C94).

    Oscillators without bounds of their own still cannot leave the range that the least
    and the greatest price allow: differences of averages stay within the distance of the
    two, percentages of change within the change from one to the other. *)

From Coq Require Import Reals Lra Lia List.
From Verif Require Import Base Num XReal Spec RSpec Bars BaseFacts Smooth Volatility Momentum Trend.
From Verif Require Import XRFacts SmoothReal SmoothReal2 MomReal VolatReal TrendReal Ranges Forget ForgetB.
Import ListNotations.
Local Unset Implicit Arguments.
Local Open Scope R_scope.

(** ** Specification *)
(** Every price lies between [lo] and [hi]. *)
Definition between (lo hi : R) (n : nat) (f : nat -> R) : Prop := forall k, (k < n)%nat -> lo <= f k <= hi.
(** The change from [a] to [b] in percent of [a]. *)
Definition percent (a b : R) : R := 100 * ((b - a) / a).

(** ** Proofs *)
Lemma percent_limits lo hi a b : 0 < lo -> lo <= a <= hi -> lo <= b <= hi -> percent hi lo <= percent a b <= percent lo hi.
Proof.
  intros L0 Ha Hb. unfold percent.
  assert (Q : forall u v, u <> 0 -> (v - u) / u = v * / u - 1) by (intros; now field). rewrite !Q by lra.
  assert (lo * / hi <= b * / a) by (apply Rmult_le_compat; [lra|apply Rlt_le, Rinv_0_lt_compat; lra|lra|apply Rinv_le_contravar; lra]).
  assert (b * / a <= hi * / lo) by (apply Rmult_le_compat; [lra|apply Rlt_le, Rinv_0_lt_compat; lra|lra|apply Rinv_le_contravar; lra]). lra.
Qed.
Lemma percent_signs lo hi : 0 < lo -> lo <= hi -> percent hi lo <= 0 <= percent lo hi.
Proof. intros. pose proof (percent_limits lo hi lo lo ltac:(lra) ltac:(lra) ltac:(lra)) as P. unfold percent in P at 2 3. unfold Rdiv in P. replace (lo - lo) with 0 in P by ring. lra. Qed.
Lemma wmean_limits ws xs lo hi : length xs = length ws -> (forall w, In w ws -> 0 < w) -> ws <> [] -> (forall x, In x xs -> lo <= x <= hi) -> lo <= wmean ws xs <= hi.
Proof.
  intros L Hw Nw Hx.
  assert (G : forall ws xs, length xs = length ws -> (forall w, In w ws -> 0 < w) -> (forall x, In x xs -> lo <= x <= hi) -> lo * Rsum ws <= wsum ws xs <= hi * Rsum ws).
  { clear. unfold wsum. induction ws as [|w ws IH]; intros [|x xs] L Hw Hx; cbn [length] in L; try lia; cbn [combine map]; rewrite ?Rsum_nil, ?Rsum_cons; [lra|].
    specialize (IH xs ltac:(lia) ltac:(intros; apply Hw; now right) ltac:(intros; apply Hx; now right)). specialize (Hw w ltac:(now left)). specialize (Hx x ltac:(now left)). cbn [fst snd].
    assert (w * lo <= w * x <= w * hi) by (split; apply Rmult_le_compat_l; lra). lra. }
  specialize (G ws xs L Hw Hx). assert (P : 0 < Rsum ws).
  { destruct ws as [|w ws]; [easy|]. rewrite Rsum_cons. assert (0 <= Rsum ws) by (apply Rsum_nonneg; intros x Ix; apply Rlt_le, Hw; now right). specialize (Hw w ltac:(now left)). lra. }
  unfold wmean. split; apply Rmult_le_reg_r with (Rsum ws); try lra; unfold Rdiv; rewrite Rmult_assoc, Rinv_l; lra.
Qed.

(** ** Percentages *)
Theorem roc_limits f n w lo hi o : (0 < w)%nat -> 0 < lo -> between lo hi n f -> roc (xseries f n) w = Ok o -> ranged o (percent hi lo) (percent lo hi).
Proof.
  intros Hw L0 B H. out H (roc_real f n w Hw (fun k Hk => not_eq_sym (Rlt_not_eq 0 (f k) (Rlt_le_trans _ _ _ L0 (proj1 (B k Hk)))))) A.
  apply (aligned_fin _ _ _ _ _ _ A). intros i Hi. apply percent_limits; [easy| |]; apply B; lia.
Qed.
Theorem ppo_limits f n s l lo hi o : (0 < s <= n)%nat -> (0 < l <= n)%nat -> 0 < lo -> between lo hi n f -> ppo (xseries f n) s l = Ok o -> ranged o (percent hi lo) (percent lo hi).
Proof.
  intros Hs Hl L0 B H. assert (E : forall w i, (0 < w)%nat -> (w - 1 <= i < n)%nat -> lo <= ewma_from w 0 f i <= hi) by (intros w i Hw Hi; apply ewma_from_bounds; [easy|lia|]; intros; apply B; lia).
  out H (ppo_real f n s l Hs Hl ltac:(intros i Hi; specialize (E l i ltac:(lia) ltac:(lia)); lra)) A. apply (aligned_fin _ _ _ _ _ _ A). intros i Hi. apply percent_limits; [easy| |]; apply E; lia.
Qed.
Theorem disparity_limits f n w lo hi o : (0 < w <= n)%nat -> 0 < lo -> between lo hi n f -> disparity (xseries f n) w = Ok o -> ranged o (percent hi lo) (percent lo hi).
Proof.
  intros Hw L0 B H. assert (E : forall i, (w - 1 <= i < n)%nat -> lo <= ewma_from w 0 f i <= hi) by (intros i Hi; apply ewma_from_bounds; [lia|lia|]; intros; apply B; lia).
  out H (disparity_real f n w Hw ltac:(intros i Hi; specialize (E i Hi); lra)) A. apply (aligned_fin _ _ _ _ _ _ A). intros i Hi. apply percent_limits; [easy|apply E; lia|apply B; lia].
Qed.
Theorem coppock_limits f n w s l lo hi o : (0 < w)%nat -> (N.of_nat w < 2 ^ 32)%N -> (s <= l <= n)%nat -> 0 < lo -> between lo hi n f ->
  coppock (xseries f n) w s l = Ok o -> ranged o (2 * percent hi lo) (2 * percent lo hi).
Proof.
  intros Hw Hw2 Hs L0 B H. out H (coppock_real f n w s l Hw Hw2 Hs (fun k Hk => not_eq_sym (Rlt_not_eq 0 (f k) (Rlt_le_trans _ _ _ L0 (proj1 (B k Hk)))))) A.
  apply (aligned_fin _ _ _ _ _ _ A). intros i Hi. apply wmean_limits.
  - unfold last_bars. now rewrite !map_length, !seq_length.
  - intros x Hx. apply in_map_iff in Hx. destruct Hx as (k & <- & Hk). apply in_seq in Hk. apply lt_0_INR. lia.
  - destruct w; [lia|discriminate].
  - intros x Hx. apply in_map_iff in Hx. destruct Hx as (k & <- & Hk). apply in_seq in Hk.
    pose proof (percent_limits lo hi (f (k - s)%nat) (f k) L0 ltac:(apply B; lia) ltac:(apply B; lia)) as P1. pose proof (percent_limits lo hi (f (k - l)%nat) (f k) L0 ltac:(apply B; lia) ltac:(apply B; lia)) as P2.
    unfold percent in P1 at 2 3, P2 at 2 3. fold (percent hi lo) (percent lo hi) in P1, P2. unfold percent in *. lra.
Qed.
Theorem pmo_limits f n w1 w2 lo hi o : (0 < w1)%nat -> (0 < w2)%nat -> (w1 + w2 <= n)%nat -> 0 < lo -> between lo hi n f ->
  pmo (xseries f n) w1 w2 = Ok o -> ranged o (10 * percent hi lo) (10 * percent lo hi).
Proof.
  intros H1 H2 Hn L0 B H. out H (pmo_real f n w1 w2 H1 H2 Hn (fun k Hk => not_eq_sym (Rlt_not_eq 0 (f k) (Rlt_le_trans _ _ _ L0 (proj1 (B k Hk)))))) A.
  apply (aligned_fin _ _ _ _ _ _ A). intros i Hi. apply ewma_from_bounds; [easy|lia|]. intros j Hj. apply ewma_from_bounds; [easy|lia|]. intros k Hk.
  pose proof (B (k - 1)%nat ltac:(lia)) as P0. pose proof (percent_limits lo hi (f (k - 1)%nat) (f k) L0 ltac:(apply B; lia) ltac:(apply B; lia)) as P.
  replace (1000 * (f k / f (k - 1)%nat - 1)) with (10 * percent (f (k - 1)%nat) (f k)); [lra|]. unfold percent. field. lra.
Qed.
Theorem cvi_limits h l n w roc lo hi o : (0 < w <= n)%nat -> (w - 1 + roc <= n)%nat -> 0 < lo -> between lo hi n (fun k => h k - l k) ->
  cvi (xseries h n) (xseries l n) w roc = Ok o -> ranged o (percent hi lo) (percent lo hi).
Proof.
  intros Hw Hr L0 B H. out H (cvi_real h l n w roc Hw ltac:(intros k Hk; specialize (B k Hk); cbv beta in B; lra) Hr) A.
  assert (EB : forall i, (w - 1 <= i < n)%nat -> lo <= ewma_from w 0 (fun k => h k - l k) i <= hi) by (intros i Hi; apply ewma_from_bounds; [lia|lia|]; intros; apply (B j); lia).
  apply (aligned_fin _ _ _ _ _ _ A). intros i Hi. pose proof (EB i ltac:(lia)) as E1. pose proof (EB (i - roc)%nat ltac:(lia)) as E2. pose proof (percent_limits lo hi _ _ L0 E2 E1) as P.
  set (x := ewma_from w 0 _ i) in *. set (y := ewma_from w 0 _ (i - roc)) in *. replace (100 * (x / y - 1)) with (percent y x); [exact P|]. unfold percent. field. lra.
Qed.

(** Three averages on top of one another. *)
Theorem trix_limits f n w lo hi o : (0 < w)%nat -> (3 * (w - 1) + 1 < n)%nat -> 0 < lo -> between lo hi n f -> trix (xseries f n) w = Ok o -> ranged o (percent hi lo) (percent lo hi).
Proof.
  intros Hw Hn L0 B H. assert (EB : forall i, (3 * (w - 1) <= i < n)%nat -> lo <= stack w 3 f i <= hi) by (intros i Hi; now apply stack_in with n).
  assert (Z : forall i, (i < n)%nat -> stack w 3 f i <> 0).
  { intros i Hi. destruct (le_lt_dec (3 * (w - 1)) i) as [C|C]; [specialize (EB i ltac:(lia)); lra|]. specialize (EB (3 * (w - 1))%nat ltac:(lia)).
    cbn [stack] in *. unfold ewma_from at 1 in EB. unfold ewma_from at 1. replace (i + 1 - (2 * (w - 1) + w))%nat with 0%nat by lia.
    replace (3 * (w - 1) + 1 - (2 * (w - 1) + w))%nat with 0%nat in EB by lia. intros Z. rewrite Z in EB. lra. }
  cbn [stack] in Z, EB. rewrite !Nat.mul_0_l, !Nat.mul_1_l in Z, EB. out H (trix_real f n w Hw ltac:(lia) Z) A. apply (aligned_fin _ _ _ _ _ _ A). intros i Hi. cbv beta.
  apply percent_limits; [easy| |]; apply EB; lia.
Qed.
(** Weighted sums of averaged percentages. *)
Lemma roc_terms f n lo hi ts i : 0 < lo -> lo <= hi -> between lo hi n f -> (i < n)%nat -> (forall r p m, In (r, p, m) ts -> (0 < p)%nat /\ 0 <= m) ->
  let t := Rsum (map snd ts) in
  t * percent hi lo <= Rsum (map (fun '(r, p, m) => if (r + p <=? i + 1)%nat then m * avg_roc f r p i else 0) ts) <= t * percent lo hi.
Proof.
  intros L0 LH B Hi. pose proof (percent_signs lo hi L0 LH) as S. cbv zeta. induction ts as [|[[r p] m] ts IH]; intros HT; cbn [map snd]; rewrite ?Rsum_nil, ?Rsum_cons; [lra|].
  specialize (IH ltac:(intros; eapply HT; right; eassumption)). destruct (HT r p m ltac:(now left)) as [Hp Hm].
  assert (m * percent hi lo <= (if (r + p <=? i + 1)%nat then m * avg_roc f r p i else 0) <= m * percent lo hi); [|lra].
  destruct (r + p <=? i + 1)%nat eqn:E.
  - apply Nat.leb_le in E. assert (percent hi lo <= avg_roc f r p i <= percent lo hi).
    { apply last_bars_bounds; [lia|]. intros j J1 J2. apply percent_limits; [easy| |]; apply B; lia. }
    split; apply Rmult_le_compat_l; lra.
  - assert (0 <= m * percent lo hi) by (apply Rmult_le_pos; lra). assert (0 <= m * (- percent hi lo)) by (apply Rmult_le_pos; lra). lra.
Qed.
Theorem kst_limits f n lo hi o : (19 <= n)%nat -> 0 < lo -> between lo hi n f -> kst (xseries f n) None None = Ok o -> ranged o (10 * percent hi lo) (10 * percent lo hi).
Proof.
  intros Hn L0 B H. assert (LH : lo <= hi) by (specialize (B 0%nat ltac:(lia)); lra).
  out H (kst_real f n Hn (fun k Hk => not_eq_sym (Rlt_not_eq 0 (f k) (Rlt_le_trans _ _ _ L0 (proj1 (B k Hk)))))) A.
  apply (aligned_fin _ _ _ _ _ _ A). intros i Hi.
  pose proof (roc_terms f n lo hi [(10%nat, 10%nat, 1); (15%nat, 10%nat, 2); (20%nat, 10%nat, 3); (30%nat, 15%nat, 4)] i L0 LH B ltac:(lia)) as T.
  cbv zeta in T. replace (Rsum (map snd _)) with 10 in T by (cbn [map snd]; rewrite !Rsum_cons, Rsum_nil; lra). apply T.
  intros r p m I. cbn [In] in I. intuition (match goal with E : (_, _, _) = (_, _, _) |- _ => inversion E; subst end; lia || lra).
Qed.
Theorem special_k_limits f n lo hi o : (19 <= n)%nat -> 0 < lo -> between lo hi n f -> special_k (xseries f n) = Ok o -> ranged o (30 * percent hi lo) (30 * percent lo hi).
Proof.
  intros Hn L0 B H. assert (LH : lo <= hi) by (specialize (B 0%nat ltac:(lia)); lra).
  out H (special_k_real f n Hn (fun k Hk => not_eq_sym (Rlt_not_eq 0 (f k) (Rlt_le_trans _ _ _ L0 (proj1 (B k Hk)))))) A.
  apply (aligned_fin _ _ _ _ _ _ A). intros i Hi.
  pose proof (roc_terms f n lo hi [(10%nat, 10%nat, 1); (15%nat, 10%nat, 2); (20%nat, 10%nat, 3); (30%nat, 15%nat, 4);
     (50%nat, 50%nat, 1); (65%nat, 65%nat, 2); (75%nat, 75%nat, 3); (100%nat, 100%nat, 4);
     (195%nat, 130%nat, 1); (265%nat, 130%nat, 2); (390%nat, 130%nat, 3); (530%nat, 195%nat, 4)] i L0 LH B ltac:(lia)) as T.
  cbv zeta in T. replace (Rsum (map snd _)) with 30 in T by (cbn [map snd]; rewrite !Rsum_cons, Rsum_nil; lra). apply T. clear.
  intros r p m I. assert (F : Forall (fun '(r, p, m) => (1 <=? p)%nat = true /\ 0 <= m) [(10%nat, 10%nat, 1); (15%nat, 10%nat, 2); (20%nat, 10%nat, 3); (30%nat, 15%nat, 4);
     (50%nat, 50%nat, 1); (65%nat, 65%nat, 2); (75%nat, 75%nat, 3); (100%nat, 100%nat, 4);
     (195%nat, 130%nat, 1); (265%nat, 130%nat, 2); (390%nat, 130%nat, 3); (530%nat, 195%nat, 4)]).
  { repeat (apply Forall_cons; [split; [reflexivity|lra]|]). apply Forall_nil. }
  rewrite Forall_forall in F. specialize (F _ I). cbv beta in F. destruct F as [F1 F2]. apply Nat.leb_le in F1. split; [lia|easy].
Qed.

(** ** Differences *)
Theorem macd_limits f n s l lo hi o : (0 < s <= n)%nat -> (0 < l <= n)%nat -> between lo hi n f -> macd (xseries f n) s l = Ok o -> ranged o (lo - hi) (hi - lo).
Proof.
  intros Hs Hl B H. assert (EB : forall w i, (0 < w)%nat -> (w - 1 <= i < n)%nat -> lo <= ewma_from w 0 f i <= hi) by (intros w i Hw Hi; apply ewma_from_bounds; [easy|lia|]; intros; apply B; lia).
  out H (macd_real f n s l Hs Hl) A. apply (aligned_fin _ _ _ _ _ _ A). intros i Hi. pose proof (EB s i ltac:(lia) ltac:(lia)). pose proof (EB l i ltac:(lia) ltac:(lia)). lra.
Qed.
Theorem dpo_limits f n w lo hi o : (3 <= w <= n)%nat -> between lo hi n f -> dpo (xseries f n) w None = Ok o -> ranged o (lo - hi) (hi - lo).
Proof.
  intros Hw B H. out H (dpo_real f n w Hw) A. apply (aligned_fin _ _ _ _ _ _ A). intros i Hi.
  pose proof (B (i - (w / 2 + 1))%nat ltac:(lia)). assert (lo <= mean (last_bars w f i) <= hi) by (apply last_bars_bounds; [lia|]; intros; apply B; lia). lra.
Qed.
Theorem qstick_limits op c n w lo hi o : (0 < w <= n)%nat -> between lo hi n op -> between lo hi n c -> qstick (xseries op n) (xseries c n) w = Ok o -> ranged o (lo - hi) (hi - lo).
Proof.
  intros Hw B1 B2 H. out H (qstick_real op c n w Hw) A. apply (aligned_fin _ _ _ _ _ _ A). intros i Hi. apply ewma_from_bounds; [lia|lia|].
  intros j Hj. specialize (B1 j ltac:(lia)). specialize (B2 j ltac:(lia)). lra.
Qed.
Theorem elder_ray_limits h l c n w lo hi o : (0 < w <= n)%nat -> between lo hi n h -> between lo hi n l -> between lo hi n c ->
  elder_ray (xseries h n) (xseries l n) (xseries c n) w = Ok o -> ranged (map fst o) (lo - hi) (hi - lo) /\ ranged (map snd o) (lo - hi) (hi - lo).
Proof.
  intros Hw Bh Bl Bc H. out H (elder_ray_real h l c n w Hw) A. assert (EB : forall i, (w - 1 <= i < n)%nat -> lo <= ewma_from w 0 c i <= hi) by (intros i Hi; apply ewma_from_bounds; [lia|lia|]; intros; apply Bc; lia).
  split; (eapply aligned_fin; [first [exact (aligned_of fst _ _ _ _ _ A)|exact (aligned_of snd _ _ _ _ _ A)]|]); intros i Hi; specialize (EB i Hi); specialize (Bh i ltac:(lia)); specialize (Bl i ltac:(lia)); lra.
Qed.
Theorem deli_limits h l n w lo hi o : (0 < w)%nat -> (3 * w <= n)%nat -> between lo hi n h -> between lo hi n l -> deli (xseries h n) (xseries l n) w = Ok o -> ranged o (2 * (lo - hi)) (2 * (hi - lo)).
Proof.
  intros Hw Hn Bh Bl H. out H (deli_real h l n w Hw Hn) A. apply (aligned_fin _ _ _ _ _ _ A). intros i Hi.
  set (q := fun k => (Rmax (h (k - 1)%nat) (h k) + Rmin (l (k - 1)%nat) (l k)) / 2) in *.
  assert (Q : forall j, (1 <= j < n)%nat -> lo <= q j <= hi).
  { intros j Hj. pose proof (Bh j ltac:(lia)). pose proof (Bl j ltac:(lia)). pose proof (Bh (j - 1)%nat ltac:(lia)). pose proof (Bl (j - 1)%nat ltac:(lia)). unfold q, Rmax, Rmin. repeat destruct Rle_dec; lra. }
  assert (D : forall j, (2 * w <= j < n)%nat -> lo - hi <= ewma_from w 1 q j - ewma_from (2 * w) 1 q j <= hi - lo).
  { intros j Hj. assert (lo <= ewma_from w 1 q j <= hi) by (apply ewma_from_bounds; [easy|lia|]; intros; apply Q; lia). assert (lo <= ewma_from (2 * w) 1 q j <= hi) by (apply ewma_from_bounds; [lia|lia|]; intros; apply Q; lia). lra. }
  pose proof (D i ltac:(lia)) as D1. assert (D2 : lo - hi <= ewma_from w (2 * w) (fun i => ewma_from w 1 q i - ewma_from (2 * w) 1 q i) i <= hi - lo) by (apply ewma_from_bounds; [easy|lia|]; intros; apply D; lia).
  cbv beta in *. lra.
Qed.

(** ** Averages that overshoot *)
(** By how much at most: the second average is subtracted from twice the first. *)
Lemma nth_between lo hi (l : list R) : (forall x, In x l -> lo <= x <= hi) -> forall j, (j < length l)%nat -> lo <= nth j l 0 <= hi.
Proof. intros H j Hj. apply H. now apply nth_In. Qed.
Theorem dema_limits l w lo hi o : (0 < w)%nat -> (2 * w - 1 <= length l)%nat -> (forall x, In x l -> lo <= x <= hi) -> dema (map Fin l) w = Ok o -> ranged o (lo - (hi - lo)) (hi + (hi - lo)).
Proof.
  intros Hw Hn B H. pose proof (nth_between lo hi l B) as B'. clear B. rename B' into B. out H (dema_real l w Hw Hn) A. apply (aligned_fin _ _ _ _ _ _ A). intros i Hi. cbv zeta.
  assert (E1 : forall j, (w - 1 <= j < length l)%nat -> lo <= ewma_from w 0 (fun j => nth j l 0) j <= hi) by (intros j Hj; apply ewma_from_bounds; [easy|lia|]; intros k Hk; apply B; lia).
  pose proof (E1 i ltac:(lia)). assert (lo <= ewma_from w (w - 1) (ewma_from w 0 (fun j => nth j l 0)) i <= hi) by (apply ewma_from_bounds; [easy|lia|]; intros; apply E1; lia). lra.
Qed.
Theorem tema_limits l w lo hi o : (0 < w)%nat -> (3 * w - 2 <= length l)%nat -> (forall x, In x l -> lo <= x <= hi) -> tema (map Fin l) w = Ok o -> ranged o (lo - 3 * (hi - lo)) (hi + 3 * (hi - lo)).
Proof.
  intros Hw Hn B H. pose proof (nth_between lo hi l B) as B'. clear B. rename B' into B. out H (tema_real l w Hw Hn) A. apply (aligned_fin _ _ _ _ _ _ A). intros i Hi. cbv zeta. set (e1 := ewma_from w 0 (fun j => nth j l 0)) in *.
  assert (E1 : forall j, (w - 1 <= j < length l)%nat -> lo <= e1 j <= hi) by (intros j Hj; apply ewma_from_bounds; [easy|lia|]; intros k Hk; apply B; lia).
  assert (E2 : forall j, (2 * w - 2 <= j < length l)%nat -> lo <= ewma_from w (w - 1) e1 j <= hi) by (intros j Hj; apply ewma_from_bounds; [easy|lia|]; intros; apply E1; lia).
  pose proof (E1 i ltac:(lia)). pose proof (E2 i ltac:(lia)). assert (lo <= ewma_from w (2 * w - 2) (ewma_from w (w - 1) e1) i <= hi) by (apply ewma_from_bounds; [easy|lia|]; intros; apply E2; lia). lra.
Qed.
Theorem zlma_limits l w lo hi o : (0 < w)%nat -> ((w - 1) / 2 + w <= length l)%nat -> (forall x, In x l -> lo <= x <= hi) -> zlma (map Fin l) w = Ok o -> ranged o (lo - (hi - lo)) (hi + (hi - lo)).
Proof.
  intros Hw Hn B H. pose proof (nth_between lo hi l B) as B'. clear B. rename B' into B. out H (zlma_real l w Hw Hn) A. apply (aligned_fin _ _ _ _ _ _ A). intros i Hi. cbv zeta. apply ewma_from_bounds; [easy|lia|].
  intros j Hj. pose proof (B j ltac:(lia)). pose proof (B (j - (w - 1) / 2)%nat ltac:(lia)). lra.
Qed.
Theorem hull_limits l w lo hi o : (0 < w)%nat -> (N.of_nat w < 2 ^ 32)%N -> (w + Nat.sqrt w - 2 <= length l)%nat -> (forall x, In x l -> lo <= x <= hi) -> hull (map Fin l) w = Ok o -> ranged o (lo - (hi - lo)) (hi + (hi - lo)).
Proof.
  intros Hw Hw2 Hn B H. pose proof (Nat.sqrt_spec w (Nat.le_0_l w)) as [Q1 Q2]. assert (Q : (0 < Nat.sqrt w)%nat) by (destruct (Nat.sqrt w); lia).
  out H (hull_real l w Hw Hw2 Hn) A. apply (aligned_fin _ _ _ _ _ _ A). intros i Hi. cbv zeta.
  assert (P : forall m, (0 < m)%nat -> (forall x, In x (map INR (seq 1 m)) -> 0 < x) /\ map INR (seq 1 m) <> []).
  { intros m Hm. split; [|destruct m; [lia|discriminate]]. intros x Hx. apply in_map_iff in Hx. destruct Hx as (k & <- & Hk). apply in_seq in Hk. apply lt_0_INR. lia. }
  assert (W : forall m j, (0 < m)%nat -> (m - 1 <= j < length l)%nat -> lo <= wmean (map INR (seq 1 m)) (win m l j) <= hi).
  { intros m j Hm Hj. destruct (P m Hm). apply wmean_limits; try easy; [rewrite map_length, seq_length; apply length_win; lia|]. intros x Hx. apply B. revert Hx. apply In_win. }
  destruct (P _ Q). apply wmean_limits; try easy; [now rewrite !map_length, !seq_length|]. intros x Hx. apply in_map_iff in Hx. destruct Hx as (j & <- & Hj). apply in_seq in Hj.
  assert ((w + 1) / 2 <= w)%nat by (apply Nat.div_le_upper_bound; lia). assert (0 < (w + 1) / 2)%nat by (apply Nat.div_str_pos; lia).
  pose proof (W ((w + 1) / 2)%nat j ltac:(lia) ltac:(lia)). pose proof (W w j Hw ltac:(lia)). lra.
Qed.

(** ** Candles *)
Theorem heikin_ashi_limits op h l c n lo hi o : (0 < n)%nat -> between lo hi n op -> between lo hi n h -> between lo hi n l -> between lo hi n c ->
  heikin_ashi (xseries op n) (xseries h n) (xseries l n) (xseries c n) = Ok o ->
  ranged (map (fun '(x, _, _, _) => x) o) lo hi /\ ranged (map (fun '(_, x, _, _) => x) o) lo hi /\ ranged (map (fun '(_, _, x, _) => x) o) lo hi /\ ranged (map (fun '(_, _, _, x) => x) o) lo hi.
Proof.
  intros Hn Bo Bh Bl Bc H. destruct (heikin_ashi_real op h l c n Hn) as (o' & a & b & t & s & E & A & Hb & A0 & AS & T0 & S0 & M & _). rewrite E in H. injection H as <-. rename o' into o.
  assert (B : forall k, (k < n)%nat -> lo <= b k <= hi) by (intros k Hk; rewrite Hb; specialize (Bo k Hk); specialize (Bh k Hk); specialize (Bl k Hk); specialize (Bc k Hk); lra).
  assert (R : forall k, (k < n)%nat -> lo <= a k <= hi).
  { induction k as [|k IH]; intros Hk; [rewrite A0; specialize (Bo 0%nat Hk); specialize (Bc 0%nat Hk); lra|]. rewrite AS. specialize (IH ltac:(lia)). specialize (B k ltac:(lia)). lra. }
  assert (TS : forall k, (k < n)%nat -> lo <= t k <= hi /\ lo <= s k <= hi).
  { intros [|k] Hk; [rewrite T0, S0; split; [now apply Bh|now apply Bl]|]. destruct (M k) as ((I1 & _) & (I2 & _)). specialize (Bh (S k) Hk). specialize (Bl (S k) Hk). specialize (R (S k) Hk). specialize (B (S k) Hk).
    cbn [In] in I1, I2. split; intuition lra. }
  split; [|split; [|split]].
  - apply (aligned_fin _ n 0 a); [|intros i Hi; apply R; lia]. exact (aligned_of (fun '(x, _, _, _) => x) _ _ _ _ _ A).
  - apply (aligned_fin _ n 0 t); [|intros i Hi; apply TS; lia]. exact (aligned_of (fun '(_, x, _, _) => x) _ _ _ _ _ A).
  - apply (aligned_fin _ n 0 s); [|intros i Hi; apply TS; lia]. exact (aligned_of (fun '(_, _, x, _) => x) _ _ _ _ _ A).
  - apply (aligned_fin _ n 0 b); [|intros i Hi; apply B; lia]. exact (aligned_of (fun '(_, _, _, x) => x) _ _ _ _ _ A).
Qed.
