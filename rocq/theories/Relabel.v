(** * Relabel: prices on another scale (C92).

    Some functions only ask which of two prices is the higher one.  Put the prices on any
    other scale that keeps their order - logarithms, ranks, a chart drawn by hand - and
    they print the same numbers. *)

From Coq Require Import Reals Lra Lia List Permutation Sorted.
From Verif Require Import Base Num XReal Spec RSpec Bars BaseFacts XRFacts Rank DistReal OrderStat Count RankCorr CorrReal RegReal VolumeReal VolatReal MomReal TrendReal.
From Verif Require Import Smooth Distribution Correlation Regression Volume Volatility Momentum Trend.
Import ListNotations.
Local Unset Implicit Arguments.
Local Open Scope R_scope.

(** ** Specification *)
(** A change of scale that keeps the order. *)
Definition increasing (phi : R -> R) : Prop := forall x y, x < y -> phi x < phi y.

Lemma inc_ltb phi x y : increasing phi -> Rltb (phi x) (phi y) = Rltb x y.
Proof.
  intros I. destruct (Rltb x y) eqn:E.
  - apply Rltb_true in E. apply Rltb_true. now apply I.
  - apply Rltb_false in E. apply Rltb_false. destruct E as [E|E]; [left; now apply I|right; now rewrite E].
Qed.
Lemma inc_eqb phi x y : increasing phi -> Req (phi x) (phi y) = Req x y.
Proof.
  intros I. destruct (Req x y) eqn:E.
  - apply Req_true in E. apply Req_true. now rewrite E.
  - apply Req_false in E. apply Req_false. destruct (Rtotal_order x y) as [L|[L|L]]; [apply I in L; lra|easy|apply I in L; lra].
Qed.
Lemma inc_leb phi x y : increasing phi -> Rleb (phi x) (phi y) = Rleb x y.
Proof.
  intros I. destruct (Rleb x y) eqn:E.
  - apply Rleb_true in E. apply Rleb_true. destruct E as [E|E]; [left; now apply I|right; now rewrite E].
  - apply Rleb_false in E. apply Rleb_false. now apply I.
Qed.
Lemma same_aligned {A} (o o' : list A) n k na f g : aligned o n k na f -> aligned o' n k na g -> (forall i, (k <= i < n)%nat -> f i = g i) -> o = o'.
Proof.
  intros A1 A2 H. rewrite (aligned_eq _ _ _ _ _ A1), (aligned_eq _ _ _ _ _ A2). f_equal. apply map_ext_in. intros i Hi. apply in_seq in Hi. apply H. lia.
Qed.
Definition on {A B} (g : A -> B) (f : nat -> A) : nat -> B := fun k => g (f k).

(** ** Steps up and down *)
Theorem obv_relabel phi c v n : increasing phi -> obv (xseries (on phi c) n) (xseries v n) = obv (xseries c n) (xseries v n).
Proof.
  intros I. destruct (obv_real (on phi c) v n) as (o & E & A). destruct (obv_real c v n) as (o' & E' & A'). rewrite E, E'. f_equal.
  apply (same_aligned _ _ _ _ _ _ _ A A'). intros i _. f_equal. unfold sum_bars. f_equal. apply map_ext. intros k. unfold on. now rewrite inc_ltb.
Qed.
Theorem psych_relabel phi f n w : increasing phi -> (0 < w)%nat -> psych (xseries (on phi f) n) w = psych (xseries f n) w.
Proof.
  intros I Hw. destruct (psych_real (on phi f) n w Hw) as (o & E & A). destruct (psych_real f n w Hw) as (o' & E' & A'). rewrite E, E'. f_equal.
  apply (same_aligned _ _ _ _ _ _ _ A A'). intros i _. rewrite (filter_ext (fun k => Rleb (on phi f (k - 1)%nat) (on phi f k)) (fun k => Rleb (f (k - 1)%nat) (f k))); [reflexivity|]. intros k. now apply inc_leb.
Qed.
(** Only the volumes are put on another scale. *)
Theorem pvi_relabel phi c v n : increasing phi -> (forall k, (k < n)%nat -> c k <> 0) -> pvi (xseries c n) (xseries (on phi v) n) = pvi (xseries c n) (xseries v n).
Proof.
  intros I Hc. apply (same_aligned _ _ _ _ _ _ _ (pvi_real c (on phi v) n Hc) (pvi_real c v n Hc)). intros i _. f_equal.
  induction i as [|i IH]; cbn [compound]; [easy|]. rewrite IH. unfold on. now rewrite inc_ltb.
Qed.
Theorem nvi_relabel phi c v n : increasing phi -> (forall k, (k < n)%nat -> c k <> 0) -> nvi (xseries c n) (xseries (on phi v) n) = nvi (xseries c n) (xseries v n).
Proof.
  intros I Hc. apply (same_aligned _ _ _ _ _ _ _ (nvi_real c (on phi v) n Hc) (nvi_real c v n Hc)). intros i _. f_equal.
  induction i as [|i IH]; cbn [compound]; [easy|]. rewrite IH. unfold on. now rewrite inc_ltb.
Qed.
Theorem mda_relabel phi d e : increasing phi -> d <> [] -> e <> [] -> mda (map Fin (map phi d)) (map Fin (map phi e)) = mda (map Fin d) (map Fin e).
Proof.
  intros I Hd He. destruct (mda_real (map phi d) (map phi e)) as (o & E & A); [now destruct d|now destruct e|]. destruct (mda_real d e Hd He) as (o' & E' & A'). rewrite E, E'. f_equal. rewrite !map_length in A.
  apply (same_aligned _ _ _ _ _ _ _ A A'). intros i _. do 2 f_equal. unfold hits. rewrite !firstn_map, !skipn_map. f_equal.
  generalize (firstn (i + 1) d) at 1 3 as a. generalize (skipn 1 (firstn (i + 1) d)) as b. generalize (skipn 1 (firstn (i + 1) e)) as c.
  intros c b a. revert b c. induction a as [|x a IH]; intros [|y b] [|z c]; cbn [map combine]; try easy. unfold up. rewrite !inc_leb by easy. f_equal. apply IH.
Qed.

(** ** Extremes *)
Theorem aroon_relabel phi psi h l n w : increasing phi -> increasing psi -> (0 < w)%nat -> aroon (xseries (on phi h) n) (xseries (on psi l) n) w = aroon (xseries h n) (xseries l n) w.
Proof.
  intros I J Hw. destruct (aroon_real (on phi h) (on psi l) n w Hw) as (o & u & d & E & A & S). destruct (aroon_real h l n w Hw) as (o' & u' & d' & E' & A' & S'). rewrite E, E'. f_equal.
  apply (same_aligned _ _ _ _ _ _ _ A A'). intros i Hi. destruct (S i Hi) as ((U1 & U2 & U3) & (D1 & D2 & D3)). destruct (S' i Hi) as ((U1' & U2' & U3') & (D1' & D2' & D3')). unfold on in *.
  assert (u i = u' i).
  { destruct (lt_eq_lt_dec (u i) (u' i)) as [[L|L]|L]; [|exact L|].
    - specialize (U3' _ L). apply I in U3'. specialize (U2 _ U1'). lra.
    - specialize (U3 _ L). specialize (U2' _ U1). destruct U2' as [Q|Q]; [apply I in Q|rewrite Q in U3]; lra. }
  assert (d i = d' i).
  { destruct (lt_eq_lt_dec (d i) (d' i)) as [[L|L]|L]; [|exact L|].
    - specialize (D3' _ L). apply J in D3'. specialize (D2 _ D1'). lra.
    - specialize (D3 _ L). specialize (D2' _ D1). destruct D2' as [Q|Q]; [apply J in Q|rewrite Q in D3]; lra. }
  congruence.
Qed.
Lemma inc_max phi l : increasing phi -> l <> [] -> Rmax_list (map phi l) = phi (Rmax_list l).
Proof.
  intros I N. destruct (Rmax_list_spec l N) as [In0 M]. destruct (Rmax_list_spec (map phi l)) as [In1 M1]; [now destruct l|].
  apply in_map_iff in In1 as (x & E & Ix). apply Rle_antisym; [|apply M1, in_map, In0]. rewrite <- E. specialize (M x Ix). destruct M as [M|M]; [left; now apply I|right; now rewrite M].
Qed.
Lemma inc_min phi l : increasing phi -> l <> [] -> Rmin_list (map phi l) = phi (Rmin_list l).
Proof.
  intros I N. destruct (Rmin_list_spec l N) as [In0 M]. destruct (Rmin_list_spec (map phi l)) as [In1 M1]; [now destruct l|].
  apply in_map_iff in In1 as (x & E & Ix). apply Rle_antisym; [apply M1, in_map, In0|]. rewrite <- E. specialize (M x Ix). destruct M as [M|M]; [left; now apply I|right; now rewrite M].
Qed.
(** The edges of the channel are put on the new scale. *)
Theorem donchian_relabel phi psi h l n w : increasing phi -> increasing psi -> (0 < w)%nat -> exists o o', donchian (xseries h n) (xseries l n) w = Ok o /\ donchian (xseries (on phi h) n) (xseries (on psi l) n) w = Ok o' /\
  forall i, (w - 1 <= i < n)%nat -> exists u m d m', nth_error o i = Some (Fin u, Fin m, Fin d) /\ nth_error o' i = Some (Fin (phi u), Fin m', Fin (psi d)).
Proof.
  intros I J Hw. destruct (donchian_real h l n w Hw) as (o & E & _ & _ & A). destruct (donchian_real (on phi h) (on psi l) n w Hw) as (o' & E' & _ & _ & A').
  exists o, o'. split; [exact E|]. split; [exact E'|]. intros i Hi. rewrite (A i Hi), (A' i Hi).
  assert (L : forall (chi : R -> R) (f : nat -> R), last_bars w (on chi f) i = map chi (last_bars w f i)) by (intros; unfold last_bars; now rewrite map_map).
  assert (N : forall f : nat -> R, last_bars w f i <> []) by (intros; now apply last_bars_nonempty).
  eexists _, _, _, _. split; [reflexivity|]. unfold highest, lowest. rewrite !L, inc_max, inc_min by (try easy; apply N). reflexivity.
Qed.
Lemma inc_sorted phi s : increasing phi -> StronglySorted Rle s -> StronglySorted Rle (map phi s).
Proof.
  intros I. induction 1 as [|x s S IH F]; cbn [map]; constructor; [exact IH|]. apply Forall_map. eapply Forall_impl; [|exact F].
  intros y [L|L]; [left; now apply I|right; now rewrite L].
Qed.
(** The middle of an odd number of prices is one of them. *)
Theorem median_relabel phi l w : increasing phi -> (Z.of_nat w <= 2 ^ 64)%Z -> Nat.odd w = true -> exists o o', median (map Fin l) w = Ok o /\ median (map Fin (map phi l)) w = Ok o' /\
  forall i, (w - 1 <= i < length l)%nat -> exists x, nth_error o i = Some (Fin x) /\ nth_error o' i = Some (Fin (phi x)).
Proof.
  intros I Hb Od. assert (Hw : (0 < w)%nat) by (destruct w; [easy|lia]).
  destruct (median_real l w Hw Hb) as (o & E & _ & _ & A). destruct (median_real (map phi l) w Hw Hb) as (o' & E' & _ & _ & A'). clear Hb.
  exists o, o'. split; [exact E|]. split; [exact E'|]. intros i Hi. set (s := Rsort (win w l i)).
  assert (Ps : Permutation (win w l i) s) by apply Rsort_perm. assert (Ss : StronglySorted Rle s) by apply Rsort_sorted.
  assert (Ls : length s = w) by (rewrite <- (Permutation_length Ps), length_win; lia).
  apply Nat.odd_spec in Od as [k Ek]. assert (D1 : ((w - 1) / 2 = k)%nat) by (rewrite Ek; replace (2 * k + 1 - 1)%nat with (k * 2)%nat by lia; now apply Nat.div_mul).
  assert (D2 : (w / 2 = k)%nat) by (rewrite Ek, Nat.mul_comm, Nat.div_add_l by lia; cbn; lia).
  exists (nth k s 0). rewrite (A i s Hi Ps Ss), D1, D2. split; [do 2 f_equal; lra|].
  rewrite (A' i (map phi s)); [|now rewrite map_length|rewrite win_map; now apply Permutation_map|now apply inc_sorted]. rewrite D1, D2.
  rewrite (nth_indep _ 0 (phi 0)) by (rewrite map_length; lia). rewrite map_nth. do 2 f_equal. lra.
Qed.
(** Of an even number it is not. *)
Theorem median_relabel_refuted : exists phi l o o' x x', increasing phi /\ median (map Fin l) 2 = Ok o /\ median (map Fin (map phi l)) 2 = Ok o' /\
  nth_error o 1 = Some (Fin x) /\ nth_error o' 1 = Some (Fin x') /\ x' <> phi x.
Proof.
  set (phi := fun x => x + Rmax 0 (x - 1)). destruct (median_real [0; 2] 2) as (o & E & _ & _ & A); [lia|lia|]. destruct (median_real (map phi [0; 2]) 2) as (o' & E' & _ & _ & A'); [lia|lia|].
  assert (S : forall x, 0 <= x -> StronglySorted Rle [0; x]) by (intros x Hx; apply SSorted_cons; [apply SSorted_cons; [apply SSorted_nil|apply Forall_nil]|apply Forall_cons; [exact Hx|apply Forall_nil]]).
  assert (P : map phi [0; 2] = [0; 3]) by (cbn; unfold phi, Rmax; repeat destruct Rle_dec; f_equal; try f_equal; lra). rewrite P in *.
  exists phi, [0; 2], o, o', 1, (3 / 2). split; [intros x y L; unfold phi, Rmax; repeat destruct Rle_dec; lra|]. split; [exact E|]. rewrite P. split; [exact E'|]. split; [|split].
  - rewrite (A 1%nat [0; 2]); [|cbn; lia|apply Permutation_refl|apply S; lra]. cbn. do 2 f_equal. lra.
  - rewrite (A' 1%nat [0; 3]); [|cbn; lia|apply Permutation_refl|apply S; lra]. cbn. do 2 f_equal. lra.
  - unfold phi, Rmax. destruct Rle_dec; lra.
Qed.

(** ** Ranks *)
Lemma inc_count phi l (p : R -> R -> bool) y : (forall x, p (phi x) (phi y) = p x y) -> count (fun x => p x (phi y)) (map phi l) = count (fun x => p x y) l.
Proof. intros H. rewrite count_map. unfold count. now rewrite (filter_ext _ (fun x => p x y)). Qed.
Lemma inc_min_ranks phi l : increasing phi -> min_ranks (map phi l) = min_ranks l.
Proof. intros I. unfold min_ranks. rewrite map_map. apply map_ext. intros y. unfold min_rank. now rewrite (inc_count phi l Rltb) by (intros; now apply inc_ltb). Qed.
Lemma inc_avg_ranks phi l : increasing phi -> avg_ranks (map phi l) = avg_ranks l.
Proof.
  intros I. unfold avg_ranks. rewrite map_map. apply map_ext. intros y. unfold avg_rank. rewrite (inc_count phi l Rltb) by (intros; now apply inc_ltb).
  now rewrite (inc_count phi l (fun x y => negb (Rltb y x))) by (intros; now rewrite inc_ltb).
Qed.
Theorem srcc_relabel phi psi srt a b w : increasing phi -> increasing psi -> (2 <= w)%nat -> (forall l : list R, sorts (srt (map Fin l)) (map Fin l)) ->
  srcc srt (map Fin (map phi a)) (map Fin (map psi b)) w = srcc srt (map Fin a) (map Fin b) w.
Proof.
  intros I J Hw Sr. destruct (srcc_real srt (map phi a) (map psi b) w Hw Sr) as (o & E & A). destruct (srcc_real srt a b w Hw Sr) as (o' & E' & A'). rewrite E, E'. f_equal.
  unfold bars2 in *. rewrite !map_length in A. apply (same_aligned _ _ _ _ _ _ _ A A'). intros i _. now rewrite !win_map, !inc_min_ranks.
Qed.
Theorem hoeffd_relabel phi psi srt a b w : increasing phi -> increasing psi -> (5 <= w)%nat ->
  (N.of_nat w * N.of_nat (w - 1) * N.of_nat (w - 2) * N.of_nat (w - 3) * N.of_nat (w - 4) < two64)%N -> (forall l : list R, sorts (srt (map Fin l)) (map Fin l)) ->
  hoeffd srt (map Fin (map phi a)) (map Fin (map psi b)) w = hoeffd srt (map Fin a) (map Fin b) w.
Proof.
  intros I J Hw Hb Sr. destruct (hoeffd_real srt (map phi a) (map psi b) w Hw Hb Sr) as (o & E & A). destruct (hoeffd_real srt a b w Hw Hb Sr) as (o' & E' & A'). rewrite E, E'. f_equal. clear Hb.
  unfold bars2 in *. rewrite !map_length in A. apply (same_aligned _ _ _ _ _ _ _ A A'). intros i _. f_equal. unfold hoeffding_d. now rewrite !win_map, !inc_avg_ranks, map_length.
Qed.
Lemma in_pairs_below n p : In p (pairs_below n) -> (fst p < n)%nat /\ (snd p < n)%nat.
Proof. unfold pairs_below. intros H. apply filter_In in H as [H _]. destruct p as [i j]. apply in_prod_iff in H as [H1 H2]. apply in_seq in H1, H2. cbn. lia. Qed.
Lemma count_in {A} (p q : A -> bool) l : (forall x, In x l -> p x = q x) -> count p l = count q l.
Proof. intros H. unfold count. now rewrite (filter_ext_in p q). Qed.
Lemma inc_krcc phi psi x y : increasing phi -> increasing psi -> length x = length y -> krcc_formula (map phi x) (map psi y) = krcc_formula x y.
Proof.
  intros I J L.
  assert (Nx : forall k, (k < length x)%nat -> nth k (map phi x) 0 = phi (nth k x 0)) by (intros k Hk; rewrite (nth_indep _ 0 (phi 0)) by (now rewrite map_length); apply map_nth).
  assert (Ny : forall k, (k < length x)%nat -> nth k (map psi y) 0 = psi (nth k y 0)) by (intros k Hk; rewrite (nth_indep _ 0 (psi 0)) by (rewrite map_length; lia); apply map_nth).
  assert (Z : forall u v, Rltb (u - v) 0 = Rltb u v) by (intros u v; destruct (Rltb u v) eqn:E; [apply Rltb_true in E; apply Rltb_true|apply Rltb_false in E; apply Rltb_false]; lra).
  unfold krcc_formula, tau_den. rewrite map_length. set (P := pairs_below (length x)).
  assert (Tx : forall p, In p P -> tied (map phi x) p = tied x p) by (intros p Hp; apply in_pairs_below in Hp as [H1 H2]; unfold tied; rewrite !Nx by easy; now apply inc_eqb).
  assert (Ty : forall p, In p P -> tied (map psi y) p = tied y p) by (intros p Hp; apply in_pairs_below in Hp as [H1 H2]; unfold tied; rewrite !Ny by easy; now apply inc_eqb).
  rewrite (count_in (conc_code (map phi x) (map psi y)) (conc_code x y)).
  2:{ intros p Hp. apply in_pairs_below in Hp as [H1 H2]. unfold conc_code. rewrite !Nx, !Ny, !Z, !inc_ltb, inc_eqb by easy. reflexivity. }
  rewrite (count_in _ _ _ Tx), (count_in _ _ _ Ty), (count_in (fun p => tied (map phi x) p && tied (map psi y) p) (fun p => tied x p && tied y p)); [reflexivity|].
  intros p Hp. now rewrite Tx, Ty.
Qed.
Theorem krcc_relabel phi psi a b w : increasing phi -> increasing psi -> (0 < w)%nat -> (N.of_nat w <= 2 ^ 32)%N ->
  krcc (map Fin (map phi a)) (map Fin (map psi b)) w = krcc (map Fin a) (map Fin b) w.
Proof.
  intros I J Hw Hb. destruct (krcc_real_formula (map phi a) (map psi b) w Hw Hb) as (o & E & A). destruct (krcc_real_formula a b w Hw Hb) as (o' & E' & A'). rewrite E, E'. f_equal. clear Hb.
  unfold bars2 in *. rewrite !map_length in A. apply (same_aligned _ _ _ _ _ _ _ A A'). intros i Hi. rewrite !win_map. apply inc_krcc; [easy|easy|]. rewrite !length_win; lia.
Qed.

(** ** In every arithmetic *)
(** Binary64 included: [phi] need only keep the comparisons between the values given. *)
Section Any.
  Context {F : Type} {O : FOps F}.
  Definition keeps_order (phi : F -> F) (l : list F) : Prop := forall x y, In x l -> In y l -> fltb (phi x) (phi y) = fltb x y.
  Theorem rank_relabel phi srt srt' (data : list F) mode : keeps_order phi data -> comparable data -> comparable (map phi data) ->
    sorts (srt data) data -> sorts (srt' (map phi data)) (map phi data) -> data <> [] ->
    In mode [None; Some RMin; Some RMax; Some RAverage] -> rank srt' (map phi data) mode = rank srt data mode.
  Proof.
    intros K C C' S S' N M. assert (N' : map phi data <> []) by now destruct data.
    assert (B : forall y, In y data -> count (fun x => fltb x (phi y)) (map phi data) = count (fun x => fltb x y) data) by (intros y Hy; rewrite count_map; apply count_in; intros x Hx; now apply K).
    assert (U : forall y, In y data -> count (fun x => negb (fltb (phi y) x)) (map phi data) = count (fun x => negb (fltb y x)) data) by (intros y Hy; rewrite count_map; apply count_in; intros x Hx; f_equal; now apply K).
    destruct (rank_min srt data C S N) as [E1 E2]. destruct (rank_min srt' (map phi data) C' S' N') as [E1' E2'].
    assert (Q : rank srt' (map phi data) (Some RMin) = rank srt data (Some RMin)).
    { rewrite E1, E1', map_map. f_equal. apply map_ext_in. intros y Hy. now rewrite B. }
    destruct M as [<-|[<-|[<-|[<-|[]]]]].
    - now rewrite E2, E2'.
    - exact Q.
    - rewrite (rank_max srt data C S N), (rank_max srt' _ C' S' N'), map_map. f_equal. apply map_ext_in. intros y Hy. now rewrite U.
    - rewrite (rank_average srt data C S N), (rank_average srt' _ C' S' N'), map_map. f_equal. apply map_ext_in. intros y Hy. now rewrite U, B.
  Qed.
  Definition keeps_ge (better : F -> F -> bool) (phi : F -> F) (l : list F) : Prop := forall x y, In x l -> In y l -> better (phi x) (phi y) = better x y.
  Lemma arg_last_kept better phi w : w <> [] -> keeps_ge better phi w -> arg_last better (map phi w) = arg_last better w.
  Proof.
    intros N K. unfold arg_last, enumerate. destruct w as [|x0 w]; [easy|]. set (l := x0 :: w) in *.
    replace (at_ (map phi l) 0) with (phi (at_ l 0)) by reflexivity. rewrite map_length.
    assert (I0 : In (at_ l 0) l) by (left; reflexivity).
    assert (G : forall (m : list F) (s : list nat), (forall x, In x m -> In x l) -> forall (b : F) (k : nat), In b l ->
      fst (fold_left (fun '(bi, bx) '(i, x) => if better x bx then (i, x) else (bi, bx)) (combine s (map phi m)) (k, phi b)) =
      fst (fold_left (fun '(bi, bx) '(i, x) => if better x bx then (i, x) else (bi, bx)) (combine s m) (k, b))).
    { induction m as [|x m IH]; intros [|i s] Hm b k Hb; cbn [map combine fold_left]; try easy.
      rewrite K by (auto; apply Hm; now left). destruct (better x b); (apply IH; [intros z Hz; apply Hm; now right|]); [apply Hm; now left|exact Hb]. }
    now apply G.
  Qed.
  Theorem aroon_any_relabel phi psi (h l : list F) w : keeps_ge fgeb phi h -> keeps_ge fleb psi l -> aroon (map phi h) (map psi l) w = aroon h l w.
  Proof.
    intros K J. unfold aroon. do 2 f_equal. rewrite !windows_map.
    assert (W : forall (m : list F) v, In v (windows (w + 1)%nat m) -> v <> [] /\ forall x, In x v -> In x m).
    { intros m v Hv. assert (Lv : length v = (w + 1)%nat) by (apply windows_length with m; [lia|exact Hv]). split; [intros ->; cbn in Lv; lia|]. apply In_windows in Hv as (i & _ & ->).
      intros x Hx. rewrite <- (firstn_skipn i m). apply in_or_app. right. rewrite <- (firstn_skipn (w + 1)%nat (skipn i m)). apply in_or_app. now left. }
    pose proof (W h) as Wh. pose proof (W l) as Wl. clear W. generalize dependent (windows (w + 1)%nat l). generalize dependent (windows (w + 1)%nat h).
    induction l0 as [|v vs IH]; intros Hh [|u us] Hl; cbn [map combine]; try easy. f_equal.
    - unfold aroon_win. destruct (Hh v) as [N1 H1]; [now left|]. destruct (Hl u) as [N2 H2]; [now left|].
      rewrite !arg_last_kept; try easy; intros x y Hx Hy; [apply J|apply K]; auto.
    - apply IH; intros; [apply Hh|apply Hl]; now right.
  Qed.
End Any.
