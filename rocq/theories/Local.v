(** * Local: the functions computed over a sliding window depend on the bars of
    that window and on nothing else.

    [windowed f w]: whenever two histories, of whatever lengths, show the same
    last [w] bars at bar [i] of the one and bar [j] of the other, the function
    prints the same item at [i] and at [j].  Every theorem holds for every
    arithmetic, hence bit for bit in binary64. *)

From Verif Require Import Tac Smooth Distribution Regression Correlation Volume Volatility Trend Momentum Warm.
Local Unset Implicit Arguments.

(** The last [m] items up to position [i] of [a] are the last [m] items up to
    position [j] of [b]. *)
Definition same_tail {A} (m : nat) (a : list A) (i : nat) (b : list A) (j : nat) : Prop :=
  i < length a /\ j < length b /\ m <= i + 1 /\ m <= j + 1 /\
  forall t, t < m -> nth_error a (i - t) = nth_error b (j - t).

Definition windowed {A B} (f : list A -> result (list B)) (w : nat) : Prop :=
  forall d1 d2 o1 o2 i j, f d1 = Ok o1 -> f d2 = Ok o2 ->
    same_tail w d1 i d2 j -> nth_error o1 i = nth_error o2 j.
(** The same for functions of two, three and four series. *)
Definition windowed2 {A B} (f : list A -> list A -> result (list B)) (w : nat) : Prop :=
  forall a1 b1 a2 b2 o1 o2 i j, f a1 b1 = Ok o1 -> f a2 b2 = Ok o2 ->
    same_tail w a1 i a2 j -> same_tail w b1 i b2 j -> nth_error o1 i = nth_error o2 j.
Definition windowed3 {A B} (f : list A -> list A -> list A -> result (list B)) (w : nat) : Prop :=
  forall a1 b1 c1 a2 b2 c2 o1 o2 i j, f a1 b1 c1 = Ok o1 -> f a2 b2 c2 = Ok o2 ->
    same_tail w a1 i a2 j -> same_tail w b1 i b2 j -> same_tail w c1 i c2 j -> nth_error o1 i = nth_error o2 j.
Definition windowed4 {A B} (f : list A -> list A -> list A -> list A -> result (list B)) (w : nat) : Prop :=
  forall a1 b1 c1 d1 a2 b2 c2 d2 o1 o2 i j, f a1 b1 c1 d1 = Ok o1 -> f a2 b2 c2 d2 = Ok o2 ->
    same_tail w a1 i a2 j -> same_tail w b1 i b2 j -> same_tail w c1 i c2 j -> same_tail w d1 i d2 j ->
    nth_error o1 i = nth_error o2 j.

(** One changed bar [p] (a NaN, say) changes the items of bars [p] to [p+w-1]
    only. *)
Theorem windowed_contains {A B} (f : list A -> result (list B)) w : windowed f w -> 0 < w ->
  forall d1 d2 o1 o2 p, length d1 = length d2 -> (forall i, i <> p -> nth_error d1 i = nth_error d2 i) ->
  f d1 = Ok o1 -> f d2 = Ok o2 ->
  forall i, w <= i + 1 -> i < length d1 -> i < p \/ p + w <= i -> nth_error o1 i = nth_error o2 i.
Proof.
  intros H Hw d1 d2 o1 o2 p L E H1 H2 i Hi Li Hp. eapply H; eauto. repeat split; auto; try lia.
  intros t Ht. apply E. lia.
Qed.

(** ** Calculus *)
Lemma st_le {A} (a b : list A) i j m k : k <= m -> same_tail m a i b j -> same_tail k a i b j.
Proof. intros Hk (H1 & H2 & H3 & H4 & H5). repeat split; auto; try lia. intros. apply H5. lia. Qed.
Lemma st_end {A} (a b : list A) i j m : 0 < m -> same_tail m a i b j -> nth_error a i = nth_error b j.
Proof. intros Hm (_ & _ & _ & _ & H). specialize (H 0 Hm). now rewrite !Nat.sub_0_r in H. Qed.
Lemma st_map {A B} (g : A -> B) a b i j m : same_tail m a i b j -> same_tail m (map g a) i (map g b) j.
Proof.
  intros (H1 & H2 & H3 & H4 & H5). repeat split; rewrite ?map_length; auto. intros t Ht. now rewrite !nth_error_map, H5.
Qed.
Lemma st_combine {A B} (a a' : list A) (b b' : list B) i j m : same_tail m a i a' j -> same_tail m b i b' j ->
  same_tail m (combine a b) i (combine a' b') j.
Proof.
  intros (H1 & H2 & H3 & H4 & H5) (G1 & G2 & G3 & G4 & G5). repeat split; rewrite ?combine_length; auto; try lia.
  intros t Ht. now rewrite !nth_error_combine, H5, G5.
Qed.
Lemma st_skip {A} (a b : list A) i j m k : m + k <= i + 1 -> m + k <= j + 1 -> 0 < m -> same_tail m a i b j ->
  same_tail m (skipn k a) (i - k) (skipn k b) (j - k).
Proof.
  intros Hi Hj Hm (H1 & H2 & H3 & H4 & H5). repeat split; rewrite ?skipn_length; try lia. intros t Ht. rewrite !nth_error_skipn.
  replace (k + (i - k - t)) with (i - t) by lia. replace (k + (j - k - t)) with (j - t) by lia. auto.
Qed.
Lemma st_pad {A} (a b p : list A) i j m k : length p = k -> same_tail m a i b j -> same_tail m (p ++ a) (i + k) (p ++ b) (j + k).
Proof.
  intros <- (H1 & H2 & H3 & H4 & H5). repeat split; rewrite ?app_length; try lia.
  intros t Ht. rewrite !nth_error_app2 by lia.
  replace (i + length p - t - length p) with (i - t) by lia. replace (j + length p - t - length p) with (j - t) by lia. auto.
Qed.
Lemma st_cons {A} (a b : list A) x i j m : same_tail m a i b j -> same_tail m (x :: a) (S i) (x :: b) (S j).
Proof. intros H. apply (st_pad a b [x] i j m 1 eq_refl) in H. now rewrite !Nat.add_1_r in H. Qed.
Lemma st_windows {A} w (a b : list A) i j m : 0 < w -> 0 < m -> same_tail (m + w - 1) a i b j ->
  same_tail m (windows w a) (i - (w - 1)) (windows w b) (j - (w - 1)).
Proof.
  intros Hw Hm (H1 & H2 & H3 & H4 & H5). repeat split; rewrite ?length_windows; try lia.
  intros t Ht. rewrite !nth_error_windows by lia. f_equal. apply nth_error_ext. intros q.
  destruct (le_lt_dec w q) as [Hq|Hq].
  { rewrite !(proj2 (nth_error_None _ _)); auto; rewrite firstn_length; lia. }
  rewrite !nth_error_firstn, !nth_error_skipn by lia.
  replace (i - (w - 1) - t + q) with (i - (w - 1 + t - q)) by lia.
  replace (j - (w - 1) - t + q) with (j - (w - 1 + t - q)) by lia. apply H5. lia.
Qed.
Lemma st_padded {A B} w (g : list A -> B) x (a b : list A) i j m : 0 < w -> 0 < m -> same_tail (m + w - 1) a i b j ->
  same_tail m (pad (w - 1) x ++ map g (windows w a)) i (pad (w - 1) x ++ map g (windows w b)) j.
Proof.
  intros Hw Hm H. pose proof (st_windows w a b i j m Hw Hm H) as S. apply (st_map g) in S.
  apply (st_pad _ _ (pad (w - 1) x) _ _ _ (w - 1)) in S; [|apply length_pad].
  destruct H as (_ & _ & H3 & H4 & _). now rewrite !Nat.sub_add in S by lia.
Qed.
Lemma st_rmap {A B} (g : A -> result B) (a b : list A) va vb i j m : same_tail m a i b j -> rmap g a = Ok va -> rmap g b = Ok vb ->
  same_tail m va i vb j.
Proof.
  intros (H1 & H2 & H3 & H4 & H5) E1 E2. pose proof (length_rmap E1). pose proof (length_rmap E2).
  repeat split; try lia. intros t Ht. specialize (H5 t Ht).
  destruct (@nth_error_is_Some A a (i - t) ltac:(lia)) as [x Ex]. rewrite Ex in H5. symmetry in H5.
  destruct (rmap_nth E1 Ex) as (y & Ey & ->). destruct (rmap_nth E2 H5) as (z & Ez & ->). congruence.
Qed.
Lemma st_rpadded {A B} w (g : list A -> result B) x (a b : list A) va vb i j m : 0 < w -> 0 < m -> same_tail (m + w - 1) a i b j ->
  rmap g (windows w a) = Ok va -> rmap g (windows w b) = Ok vb ->
  same_tail m (pad (w - 1) x ++ va) i (pad (w - 1) x ++ vb) j.
Proof.
  intros Hw Hm H E1 E2. pose proof (st_windows w a b i j m Hw Hm H) as S. eapply st_rmap in S; eauto.
  apply (st_pad _ _ (pad (w - 1) x) _ _ _ (w - 1)) in S; [|apply length_pad].
  destruct H as (_ & _ & H3 & H4 & _). now rewrite !Nat.sub_add in S by lia.
Qed.

Lemma st_pos {A} (a b : list A) i j m : same_tail m a i b j -> m <= i + 1 /\ m <= j + 1.
Proof. intros (_ & _ & H3 & H4 & _). easy. Qed.
Lemma st_tail {A} (a b : list A) i j m : 0 < m -> same_tail (S m) a i b j -> same_tail m (skipn 1 a) (i - 1) (skipn 1 b) (j - 1).
Proof. intros Hm H. destruct (st_pos _ _ _ _ _ H). apply st_skip; try lia. eapply st_le; [|exact H]. lia. Qed.
Lemma st_init {A} (a b : list A) i j m : 0 < m -> same_tail (S m) a i b j ->
  same_tail m (firstn (length a - 1) a) (i - 1) (firstn (length b - 1) b) (j - 1).
Proof.
  intros Hm (H1 & H2 & H3 & H4 & H5). repeat split; rewrite ?firstn_length; try lia.
  intros t Ht. rewrite !nth_error_firstn by lia. specialize (H5 (S t) ltac:(lia)).
  now replace (i - 1 - t) with (i - S t) by lia; replace (j - 1 - t) with (j - S t) by lia.
Qed.
Lemma st_padded1 {A B} w (g : list A -> B) x (a b : list A) i j m : 0 < w -> 0 < m -> 0 < i -> 0 < j -> same_tail (m + w - 1) a (i - 1) b (j - 1) ->
  same_tail m (pad w x ++ map g (windows w a)) i (pad w x ++ map g (windows w b)) j.
Proof.
  intros Hw Hm Hi Hj H. pose proof (st_padded w g x a b _ _ m Hw Hm H) as S. apply (st_cons _ _ x) in S.
  replace (Datatypes.S (i - 1)) with i in S by lia. replace (Datatypes.S (j - 1)) with j in S by lia.
  destruct w; [lia|]. cbn [pad repeat app]. unfold pad in *. now replace (Datatypes.S w - 1) with w in S by lia.
Qed.
Lemma st_pairs {A} (a b : list A) i j m : 0 < m -> same_tail (S m) a i b j -> same_tail m (windows 2 a) (i - 1) (windows 2 b) (j - 1).
Proof. intros Hm H. apply (st_windows 2); try lia. now replace (m + 2 - 1) with (S m) by lia. Qed.
Lemma st_zip3 {A B C} (a a' : list A) (b b' : list B) (c c' : list C) i j m : same_tail m a i a' j -> same_tail m b i b' j -> same_tail m c i c' j ->
  same_tail m (zip3 a b c) i (zip3 a' b' c') j.
Proof. intros. unfold zip3. auto using st_combine. Qed.
Lemma st_zip4 {A B C D} (a a' : list A) (b b' : list B) (c c' : list C) (d d' : list D) i j m :
  same_tail m a i a' j -> same_tail m b i b' j -> same_tail m c i c' j -> same_tail m d i d' j ->
  same_tail m (zip4 a b c d) i (zip4 a' b' c' d') j.
Proof. intros. unfold zip4, zip3. auto using st_combine. Qed.
Lemma st_zip5 {A B C D E} (a a' : list A) (b b' : list B) (c c' : list C) (d d' : list D) (e e' : list E) i j m :
  same_tail m a i a' j -> same_tail m b i b' j -> same_tail m c i c' j -> same_tail m d i d' j -> same_tail m e i e' j ->
  same_tail m (zip5 a b c d e) i (zip5 a' b' c' d' e') j.
Proof. intros. unfold zip5, zip4, zip3. auto 6 using st_combine. Qed.
(** A scan whose state is a function of the item it has just read. *)
Lemma st_scan_last {S A B} (g : S -> A -> S * B) (h : A -> S) (k : S -> A -> B) : (forall s x, g s x = (h x, k s x)) ->
  forall s1 s2 a b i j m, same_tail (Datatypes.S m) a i b j -> same_tail m (scan g s1 a) i (scan g s2 b) j.
Proof.
  intros G.
  assert (L : forall l s i x y, nth_error l i = Some x -> nth_error l (Datatypes.S i) = Some y -> nth_error (scan g s l) (Datatypes.S i) = Some (k (h x) y)).
  { induction l as [|z l IH]; intros s i x y E1 E2; [now destruct i|]. cbn [scan]. rewrite G. destruct i as [|i]; cbn in *.
    - destruct l as [|z' l]; [easy|]. cbn in *. rewrite G. cbn. congruence.
    - now apply IH. }
  intros s1 s2 a b i j m (H1 & H2 & H3 & H4 & H5). repeat split; rewrite ?length_scan; try lia.
  intros t Ht. pose proof (H5 t ltac:(lia)) as E0. pose proof (H5 (Datatypes.S t) ltac:(lia)) as E1.
  destruct (@nth_error_is_Some A a (i - t) ltac:(lia)) as [y Ey], (@nth_error_is_Some A a (i - Datatypes.S t) ltac:(lia)) as [x Ex].
  rewrite Ey in E0. rewrite Ex in E1. symmetry in E0, E1.
  replace (i - t) with (Datatypes.S (i - Datatypes.S t)) in * by lia. replace (j - t) with (Datatypes.S (j - Datatypes.S t)) in * by lia.
  now rewrite (L a s1 _ x y), (L b s2 _ x y).
Qed.
Lemma st_scan_any {S A B} (g : S -> A -> S * B) (k : A -> B) : (forall s x, snd (g s x) = k x) ->
  forall s1 s2 a b i j m, same_tail m a i b j -> same_tail m (scan g s1 a) i (scan g s2 b) j.
Proof.
  intros G. assert (L : forall l s, scan g s l = map k l).
  { induction l as [|z l IH]; intros s; [easy|]. cbn. specialize (G s z). destruct (g s z) as [s' b]. cbn in G. subst. now rewrite IH. }
  intros. rewrite !L. now apply st_map.
Qed.

Lemma slice_to_k {A} (l : list A) k t : slice_to l k = Ok t -> t = firstn k l /\ k <= length l.
Proof. unfold slice_to. destruct (Nat.leb_spec k (length l)); intros [=]; split; easy. Qed.
Ltac dup := repeat match goal with H1 : ?x = Ok ?a, H2 : ?x = Ok ?b |- _ => rewrite H1 in H2; apply Ok_inj in H2; subst end.
Ltac opns := opn; repeat match goal with
  | H : slice_to _ _ = Ok _ |- _ => apply slice_to_k in H; destruct H as [H ?]; subst
  | H : Ok _ = Ok _ |- _ => apply Ok_inj in H; subst
  | H : bind _ _ = Ok _ |- _ => revert H; opn
  end; dup.
Ltac both := intros; repeat match goal with H : _ = Ok ?o |- _ => is_var o; revert H end; opns; intros; opns;
  try (match goal with H : same_tail _ _ _ _ _ |- _ => pose proof (st_pos _ _ _ _ _ H) end).
Tactic Notation "start" reference(f) := unfold windowed, windowed2, windowed3, windowed4, f; both.
Ltac fit := first [ eassumption | match goal with H : same_tail _ ?a _ ?b _ |- same_tail _ ?a _ ?b _ => eapply st_le; [|exact H]; lia end ].

Section Local.
  Context {F : Type} {O : FOps F}.
  Local Open Scope F_scope.
  Local Open Scope nat_scope.

  (** ** Averages *)
  Lemma sma_tail d1 d2 o1 o2 w i j m : 0 < m -> sma d1 w = Ok o1 -> sma d2 w = Ok o2 -> same_tail (m + w - 1) d1 i d2 j -> same_tail m o1 i o2 j.
  Proof. start sma. now apply st_padded. Qed.
  Theorem sma_windowed w : windowed (fun d => sma d w) w.
  Proof. start sma. apply st_end with 1; [lia|]. apply st_padded; try lia. fit. Qed.
  Lemma wma_tail d1 d2 o1 o2 w i j m : 0 < m -> wma d1 w = Ok o1 -> wma d2 w = Ok o2 -> same_tail (m + w - 1) d1 i d2 j -> same_tail m o1 i o2 j.
  Proof. start wma. now apply st_padded. Qed.
  Theorem wma_windowed w : windowed (fun d => wma d w) w.
  Proof. start wma. apply st_end with 1; [lia|]. apply st_padded; try lia. fit. Qed.
  Theorem pwma_windowed w : windowed (fun d => pwma d w) w.
  Proof. unfold windowed, pwma. intros d1 d2 o1 o2 i j. destruct (pascal_row w) as [[row den]|]; [|easy]. cbn [bind]. opns. intros. apply st_end with 1; [lia|]. apply st_padded; try lia. fit. Qed.
  Theorem fwma_windowed w : windowed (fun d => fwma d w) w.
  Proof. start fwma. apply st_end with 1; [lia|]. apply st_padded; try lia. fit. Qed.
  Lemma lrf_tail d1 d2 o1 o2 w i j m : 0 < m -> lrf d1 w = Ok o1 -> lrf d2 w = Ok o2 -> same_tail (m + w - 1) d1 i d2 j -> same_tail m o1 i o2 j.
  Proof. start lrf. now apply st_padded. Qed.
  Theorem lrf_windowed w : windowed (fun d => lrf d w) w.
  Proof. start lrf. apply st_end with 1; [lia|]. apply st_padded; try lia. fit. Qed.
End Local.

Lemma st_pads {A} (a b p : list A) i j m k : length p = k -> k <= i -> k <= j -> same_tail m a (i - k) b (j - k) -> same_tail m (p ++ a) i (p ++ b) j.
Proof. intros H Hi Hj S. apply (st_pad _ _ p _ _ _ k H) in S. now rewrite !Nat.sub_add in S by lia. Qed.
Lemma st_conss {A} (a b : list A) x i j m : 0 < i -> 0 < j -> same_tail m a (i - 1) b (j - 1) -> same_tail m (x :: a) i (x :: b) j.
Proof. intros Hi Hj S. now apply (st_pads a b [x] i j m 1 eq_refl). Qed.
Lemma st_diffs {A B} (g : list A -> B) (a b : list A) i j m : 0 < m -> same_tail (S m) a i b j ->
  same_tail m (map g (windows 2 a)) (i - 1) (map g (windows 2 b)) (j - 1).
Proof. intros Hm H. apply st_map. now apply st_pairs. Qed.
Lemma st_at {A} (d : A) (a b : list A) i j m t : same_tail m a i b j -> t < m -> nth (i - t) a d = nth (j - t) b d.
Proof.
  intros (H1 & H2 & H3 & H4 & H5) Ht. specialize (H5 t Ht). rewrite (nth_error_nth' a d), (nth_error_nth' b d) in H5 by lia. now injection H5.
Qed.
Lemma st_seq {B} (g h : nat -> B) k n1 n2 i j : k <= i -> k <= j -> i < n1 -> j < n2 -> g i = h j ->
  forall p : list B, length p = k -> nth_error (p ++ map g (seq k (n1 - k))) i = nth_error (p ++ map h (seq k (n2 - k))) j.
Proof.
  intros Hi Hj H1 H2 E p Hp. rewrite !nth_error_app2, !nth_error_map by lia.
  rewrite !nth_error_seq by lia. cbn. f_equal. now replace (k + (i - length p)) with i by lia; replace (k + (j - length p)) with j by lia.
Qed.
Lemma nth_error_rev {A} (l : list A) q : q < length l -> nth_error (rev l) q = nth_error l (length l - S q).
Proof.
  intros H. destruct l as [|x l]; [easy|]. rewrite (nth_error_nth' _ x) by now rewrite rev_length.
  rewrite rev_nth by easy. symmetry. apply nth_error_nth'. lia.
Qed.
Lemma st_shift {A} (a b : list A) i j m : 0 < m -> same_tail (S m) a i b j -> same_tail m a (i - 1) b (j - 1).
Proof.
  intros Hm (H1 & H2 & H3 & H4 & H5). repeat split; try lia. intros t Ht. specialize (H5 (S t) ltac:(lia)).
  now replace (i - 1 - t) with (i - S t) by lia; replace (j - 1 - t) with (j - S t) by lia.
Qed.
Lemma st_prs {A} (a b : list A) i j m : 0 < m -> same_tail (S m) a i b j ->
  same_tail m (combine a (skipn 1 a)) (i - 1) (combine b (skipn 1 b)) (j - 1).
Proof. intros Hm H. apply st_combine; [now apply st_shift|now apply st_tail]. Qed.
Ltac last1 := apply st_end with 1; [lia|].
Ltac padw := apply st_pads with (1 := length_pad); [lia|lia|].

Section Local2.
  Context {F : Type} {FO : FOps F}.
  Local Open Scope F_scope.
  Local Open Scope nat_scope.

  Theorem trima_windowed w : 0 < w -> windowed (fun d => trima d w) w.
  Proof.
    intros Hw d1 d2 o1 o2 i j. unfold trima. cbn zeta. set (k := if w mod 2 =? 0 then div_ceil2 w + 1 else div_ceil2 w).
    assert (K : k + div_ceil2 w - 1 <= w /\ 0 < k /\ 0 < div_ceil2 w).
    { subst k. unfold div_ceil2. pose proof (Nat.div_mod w 2 ltac:(lia)). pose proof (Nat.mod_upper_bound w 2 ltac:(lia)).
      destruct (w mod 2 =? 0) eqn:E; [apply Nat.eqb_eq in E|apply Nat.eqb_neq in E].
      - replace (w + 1) with (1 + (w / 2) * 2) by lia. rewrite Nat.div_add by lia. change (1 / 2) with 0. lia.
      - replace (w + 1) with (0 + (w / 2 + 1) * 2) by lia. rewrite Nat.div_add by lia. change (0 / 2) with 0. lia. }
    destruct (sma d1 (div_ceil2 w)) as [a|] eqn:E1; [|easy]. destruct (sma d2 (div_ceil2 w)) as [b|] eqn:E2; [|easy].
    cbn [bind]. intros E3 E4 S. last1. eapply sma_tail; eauto. eapply sma_tail; eauto; try lia. eapply st_le; [|exact S]. lia.
  Qed.
  Theorem alma_windowed w sigma mu : windowed (fun d => alma d w sigma mu) (w + 1).
  Proof.
    start alma. match goal with H : same_tail _ _ _ _ _ |- _ => pose proof H as (? & ? & ? & ? & ?) end.
    apply st_seq; try lia; [|apply length_pad]. f_equal. apply map_ext_in. intros t Ht. apply in_seq in Ht.
    unfold at_. eapply st_at; eauto. lia.
  Qed.
  Theorem kernel_windowed sigma : windowed (fun d => kernel d sigma) 255.
  Proof.
    unfold windowed, kernel. intros d1 d2 o1 o2 i j. opn. intros S. pose proof S as (H1 & H2 & H3 & H4 & H5).
    rewrite !nth_error_map, !nth_error_seq by lia. cbn [option_map Nat.add]. do 2 f_equal.
    rewrite !Nat.min_r by lia. apply nth_error_ext. intros q. destruct (le_lt_dec 255 q) as [Hq|Hq].
    { rewrite !(proj2 (nth_error_None _ _)); auto; rewrite firstn_length; lia. }
    rewrite !nth_error_firstn by lia. rewrite !nth_error_rev by (rewrite firstn_length; lia). rewrite !firstn_length, !Nat.min_l by lia.
    rewrite !nth_error_firstn by lia. replace (i + 1 - Datatypes.S q) with (i - q) by lia. replace (j + 1 - Datatypes.S q) with (j - q) by lia. apply H5. lia.
  Qed.

  (** ** Statistics *)
  Theorem variance_windowed w : windowed (fun d => variance d w) w.
  Proof. start variance. last1. apply st_padded; try lia. fit. Qed.
  Theorem std_dev_windowed w : windowed (fun d => std_dev d w) w.
  Proof. unfold std_dev, std_dev_raw, windowed. both. last1. apply st_padded; try lia. fit. Qed.
  Theorem vstd_dev_windowed w dv : windowed (fun d => vstd_dev d w dv) w.
  Proof. unfold vstd_dev, std_dev, std_dev_raw, windowed. both. last1. apply st_map. apply st_padded; try lia. fit. Qed.
  Theorem zscore_windowed w : windowed (fun d => zscore d w) w.
  Proof. start zscore. last1. apply st_padded; try lia. fit. Qed.
  Theorem mad_windowed w : windowed (fun d => mad d w) w.
  Proof. start mad. last1. apply st_padded; try lia. fit. Qed.
  Theorem cv_windowed w : windowed (fun d => cv d w) w.
  Proof. start cv. last1. apply st_padded; try lia. fit. Qed.
  Theorem kurtosis_windowed w : windowed (fun d => kurtosis d w) w.
  Proof. start kurtosis. last1. apply st_padded; try lia. fit. Qed.
  Theorem roc_windowed w : windowed (fun d => roc d w) w.
  Proof. start roc. last1. apply st_padded; try lia. fit. Qed.
  Theorem cog_windowed w : windowed (fun d => cog d w) w.
  Proof. start cog. last1. apply st_padded; try lia. fit. Qed.
  Theorem skew_windowed w : windowed (fun d => skew d w) w.
  Proof. start skew. last1. eapply st_rpadded; eauto; try lia. fit. Qed.
  Theorem quantile_windowed w q : windowed (fun d => quantile d w q) w.
  Proof. start quantile. last1. eapply st_rpadded; eauto; try lia. fit. Qed.
  Theorem median_windowed w : windowed (fun d => median d w) w.
  Proof. apply quantile_windowed. Qed.
  Theorem approx_entropy_windowed w rl tol : windowed (fun d => approx_entropy d w rl (Some tol)) w.
  Proof. unfold windowed, approx_entropy. cbn [entropy_tol bind]. both. last1. eapply st_rpadded; eauto; try lia. fit. Qed.
  Theorem sample_entropy_windowed w rl tol : windowed (fun d => sample_entropy d w rl (Some tol)) w.
  Proof. unfold windowed, sample_entropy. cbn [entropy_tol bind]. both. last1. eapply st_rpadded; eauto; try lia. fit. Qed.

  (** ** Correlations *)
  Lemma st_zipw {A B C} w (g : list A * list B -> C) x (a a' : list A) (b b' : list B) i j m : 0 < w -> 0 < m ->
    same_tail (m + w - 1) a i a' j -> same_tail (m + w - 1) b i b' j ->
    same_tail m (pad (w - 1) x ++ map g (combine (windows w a) (windows w b))) i
                (pad (w - 1) x ++ map g (combine (windows w a') (windows w b'))) j.
  Proof.
    intros Hw Hm H1 H2. pose proof (st_pos _ _ _ _ _ H1). padw. apply st_map, st_combine; apply st_windows; try lia; easy.
  Qed.
  Lemma st_zipr {A B C} w (g : list A * list B -> result C) x (a a' : list A) (b b' : list B) va vb i j m : 0 < w -> 0 < m ->
    same_tail (m + w - 1) a i a' j -> same_tail (m + w - 1) b i b' j ->
    rmap g (combine (windows w a) (windows w b)) = Ok va -> rmap g (combine (windows w a') (windows w b')) = Ok vb ->
    same_tail m (pad (w - 1) x ++ va) i (pad (w - 1) x ++ vb) j.
  Proof.
    intros Hw Hm H1 H2 E1 E2. pose proof (st_pos _ _ _ _ _ H1). padw. eapply st_rmap; [|exact E1|exact E2]. apply st_combine; apply st_windows; try lia; easy.
  Qed.
  Theorem pcc_windowed w : windowed2 (fun x y => pcc x y w) w.
  Proof. unfold windowed2, pcc, zip_windows. both. last1. eapply st_zipw; eauto; try lia; fit. Qed.
  Theorem dcor_windowed w : windowed2 (fun x y => dcor x y w) w.
  Proof. unfold windowed2, dcor, zip_windows. both. last1. eapply st_zipw; eauto; try lia; fit. Qed.
  Theorem mic_windowed ord w : windowed2 (fun x y => mic ord x y w) w.
  Proof. unfold windowed2, mic, zip_windows. both. last1. eapply st_zipw; eauto; try lia; fit. Qed.
  Theorem srcc_windowed srt w : windowed2 (fun x y => srcc srt x y w) w.
  Proof. unfold windowed2, srcc, zip_windows. both. last1. eapply st_zipr; eauto; try lia; fit. Qed.
  Theorem krcc_windowed w : windowed2 (fun x y => krcc x y w) w.
  Proof. unfold windowed2, krcc, zip_windows. both. last1. eapply st_zipr; eauto; try lia; fit. Qed.
  Theorem hoeffd_windowed srt w : windowed2 (fun x y => hoeffd srt x y w) w.
  Proof. unfold windowed2, hoeffd, zip_windows. both. last1. eapply st_zipr; eauto; try lia; fit. Qed.
  Theorem rsq_windowed w : windowed2 (fun x y => rsq x y w) w.
  Proof. unfold windowed2, rsq, pcc, zip_windows. both. last1. apply st_map. eapply st_zipw; eauto; try lia; fit. Qed.
  Theorem rsc_windowed : windowed2 (fun x y => Ok (rsc x y)) 1.
  Proof. start rsc. last1. now apply st_map, st_combine. Qed.
  Theorem perf_windowed w : 0 < w -> windowed2 (fun x y => perf x y w) w.
  Proof.
    intros Hw. unfold windowed2, perf. both. last1. apply st_map, st_zip4; try (eapply st_le; [|eassumption]; lia);
    eapply sma_tail; eauto; try lia; fit.
  Qed.
  Theorem beta_windowed w : windowed2 (fun x y => beta x y w) (2 * w).
  Proof.
    unfold windowed2, beta, zip_windows, returns. both. last1.
    pose proof (st_pos _ _ _ _ _ H1). padw. replace (i - ((w - 1) * 2 + 1)) with (i - 1 - (w - 1) - (w - 1)) by lia.
    replace (j - ((w - 1) * 2 + 1)) with (j - 1 - (w - 1) - (w - 1)) by lia.
    apply st_map, st_windows; try lia. apply st_map, st_combine; (apply st_windows; [lia|lia|]); apply st_diffs; try lia; fit.
  Qed.
End Local2.

Section Local3.
  Context {F : Type} {FO : FOps F}.
  Local Open Scope F_scope.
  Local Open Scope nat_scope.
  Lemma st_padw {A} w x (a b : list A) i j m : w <= i -> w <= j -> same_tail m a (i - w) b (j - w) ->
    same_tail m (pad w x ++ a) i (pad w x ++ b) j.
  Proof. intros. now padw. Qed.
  Lemma st_windows1 {A} w (a b : list A) i j m : 0 < w -> 0 < m -> 0 < i -> 0 < j -> same_tail (m + w - 1) a (i - 1) b (j - 1) ->
    same_tail m (windows w a) (i - w) (windows w b) (j - w).
  Proof.
    intros Hw Hm Hi Hj H. apply (st_windows w) in H; try lia. now replace (i - 1 - (w - 1)) with (i - w) in H by lia; replace (j - 1 - (w - 1)) with (j - w) in H by lia.
  Qed.

  (** ** Volume *)
  Theorem cmf_windowed w : windowed4 (fun h l c v => cmf h l c v w) w.
  Proof.
    start cmf. last1. padw. apply st_map, st_combine; (apply st_windows; [lia|lia|]); [apply st_map, st_zip4|]; fit.
  Qed.
  Theorem vwma_windowed w : windowed2 (fun d v => vwma d v w) w.
  Proof. start vwma. last1. eapply st_zipw; eauto; try lia; fit. Qed.
  Theorem bw_mfi_windowed : windowed3 (fun h l v => Ok (bw_mfi h l v)) 1.
  Proof. start bw_mfi. last1. now apply st_map, st_zip3. Qed.
  Lemma scan_head {S A B} (g : S -> A -> S * B) (h : A -> S) (k : S -> A -> B) : (forall s x, g s x = (h x, k s x)) ->
    forall s x l, scan g (h x) l = skipn 1 (scan g s (x :: l)).
  Proof. intros G s x l. cbn. now rewrite G. Qed.
  Theorem mfi_windowed w : windowed4 (fun h l c v => mfi h l c v w) (w + 1).
  Proof.
    unfold windowed4, mfi, tail4. intros h1 l1 c1 v1 h2 l2 c2 v2 o1 o2 i j E1 E2 H1 H2 H3 H4.
    destruct h1 as [|hx h1], l1 as [|lx l1], c1 as [|cx c1], v1 as [|vx v1]; try discriminate.
    destruct h2 as [|hy h2], l2 as [|ly l2], c2 as [|cy c2], v2 as [|vy v2]; try discriminate.
    revert E1 E2.
    set (hh := fun x : F * F * F * F => let '(h, l, c, v) := x in ((h + l + c) / #3)%F).
    set (kk := fun (s : F) (x : F * F * F * F) => snd (mfi_step s x)).
    assert (G : forall s x, mfi_step s x = (hh x, kk s x)) by (intros s [[[? ?] ?] ?]; reflexivity).
    cbn [slice_from length Nat.leb skipn bind idx nth_error].
    change ((hx + lx + cx) / #3)%F with (hh (hx, lx, cx, vx)). change ((hy + ly + cy) / #3)%F with (hh (hy, ly, cy, vy)).
    rewrite !(scan_head _ hh kk G #0%F).
    change ((hx, lx, cx, vx) :: zip4 h1 l1 c1 v1) with (zip4 (hx :: h1) (lx :: l1) (cx :: c1) (vx :: v1)).
    change ((hy, ly, cy, vy) :: zip4 h2 l2 c2 v2) with (zip4 (hy :: h2) (ly :: l2) (cy :: c2) (vy :: v2)).
    assert (S : same_tail (w + 1) (zip4 (hx :: h1) (lx :: l1) (cx :: c1) (vx :: v1)) i (zip4 (hy :: h2) (ly :: l2) (cy :: c2) (vy :: v2)) j)
      by now apply st_zip4.
    both. last1. padw.
    assert (S' : same_tail w (skipn 1 (scan mfi_step #0%F (zip4 (hx :: h1) (lx :: l1) (cx :: c1) (vx :: v1)))) (i - 1)
      (skipn 1 (scan mfi_step #0%F (zip4 (hy :: h2) (ly :: l2) (cy :: c2) (vy :: v2)))) (j - 1)).
    { apply st_skip; try lia. apply (st_scan_last _ hh kk G). fit. }
    apply st_map, st_combine; (apply st_windows1; [lia|lia|lia|lia|]); apply st_map; fit.
  Qed.
  Lemma ease_tail h1 l1 v1 e1 h2 l2 v2 e2 i j m : 0 < m ->
    rmap (ease_bar h1 l1 v1) (seq 1 (length h1 - 1)) = Ok e1 -> rmap (ease_bar h2 l2 v2) (seq 1 (length h2 - 1)) = Ok e2 ->
    same_tail (S m) h1 i h2 j -> same_tail (S m) l1 i l2 j -> same_tail (S m) v1 i v2 j -> same_tail m e1 (i - 1) e2 (j - 1).
  Proof.
    intros Hm E1 E2 (A1 & A2 & A3 & A4 & A5) (B1 & B2 & B3 & B4 & B5) (C1 & C2 & C3 & C4 & C5).
    pose proof (length_rmap E1) as L1. pose proof (length_rmap E2) as L2. rewrite seq_length in *.
    repeat split; try lia. intros t Ht.
    destruct (rmap_nth E1 (@nth_error_seq 1 (length h1 - 1) (i - 1 - t) ltac:(lia))) as (y & Ey & ->).
    destruct (rmap_nth E2 (@nth_error_seq 1 (length h2 - 1) (j - 1 - t) ltac:(lia))) as (z & Ez & ->).
    revert Ey Ez. unfold ease_bar, idx.
    replace (1 + (i - 1 - t)) with (i - t) by lia. replace (1 + (j - 1 - t)) with (j - t) by lia.
    replace (i - t - 1) with (i - S t) by lia. replace (j - t - 1) with (j - S t) by lia.
    rewrite !A5, !B5, !C5 by lia. congruence.
  Qed.
  Theorem ease_windowed w : 0 < w -> windowed3 (fun h l v => ease h l v w) (w + 1).
  Proof.
    intros Hw. start ease. last1. apply st_conss; try lia. eapply sma_tail; eauto. eapply ease_tail; eauto; try lia; fit.
  Qed.

  (** ** Volatility *)
  Theorem gri_windowed w : windowed2 (fun h l => gri h l w) w.
  Proof. start gri. last1. eapply st_zipw; eauto; try lia; fit. Qed.
  Theorem donchian_windowed w : windowed2 (fun h l => donchian h l w) w.
  Proof. start donchian. last1. eapply st_zipw; eauto; try lia; fit. Qed.
  Lemma true_range_tail h1 l1 c1 t1 h2 l2 c2 t2 i j m : 0 < m -> true_range h1 l1 c1 = Ok t1 -> true_range h2 l2 c2 = Ok t2 ->
    same_tail (S m) h1 i h2 j -> same_tail (S m) l1 i l2 j -> same_tail (S m) c1 i c2 j -> same_tail m t1 (i - 1) t2 (j - 1).
  Proof.
    intros Hm. unfold true_range. both. apply st_map, st_zip3; [now apply st_tail|now apply st_tail|now apply st_init].
  Qed.
  Theorem tr_windowed : windowed3 tr 2.
  Proof. start tr. last1. apply st_conss; try lia. eapply true_range_tail; eauto. Qed.
  Theorem typical_windowed w : 0 < w -> windowed3 (fun h l c => typical h l c w) w.
  Proof. intros Hw. unfold windowed3, typical. intros. last1. eapply sma_tail; eauto. apply st_map, st_zip3; fit. Qed.
  Theorem wcp_windowed : windowed3 (fun h l c => Ok (wcp h l c)) 1.
  Proof. start wcp. last1. now apply st_map, st_zip3. Qed.
  Theorem hv_windowed w dv : windowed (fun d => hv d w dv) (w + 1).
  Proof. start hv. last1. padw. apply st_map, st_windows1; try lia. apply st_diffs; try lia. fit. Qed.
  Theorem cc_hv_windowed w : windowed (fun d => cc_hv d w) (w + 1).
  Proof. start cc_hv. last1. padw. apply st_map, st_windows1; try lia. apply st_diffs; try lia. fit. Qed.
  Theorem gkyz_hv_windowed w : windowed4 (fun o h l c => gkyz_hv o h l c w) (w + 1).
  Proof.
    start gkyz_hv. last1. padw. apply st_map, st_windows1; try lia. apply st_map, st_zip5;
    try (apply st_tail; [lia|]; fit). apply st_shift; try lia; fit.
  Qed.
  Theorem chop_windowed w : windowed3 (fun h l c => chop h l c w) (w + 1).
  Proof.
    start chop. last1. padw. apply st_map, st_zip3; (apply st_windows1; try lia); try (apply st_tail; [lia|]; fit).
    eapply true_range_tail; eauto; try lia; fit.
  Qed.
  Theorem vhf_windowed w : windowed3 (fun h l c => vhf h l c w) (w + 1).
  Proof.
    start vhf. last1. padw. apply st_map, st_zip3.
    - apply st_windows1; try lia. apply st_diffs; try lia; fit.
    - replace (i - w) with (i - (w - 1) - 1) by lia. replace (j - w) with (j - (w - 1) - 1) by lia.
      apply st_skip; try lia. apply st_windows; try lia; fit.
    - replace (i - w) with (i - (w - 1) - 1) by lia. replace (j - w) with (j - (w - 1) - 1) by lia.
      apply st_skip; try lia. apply st_windows; try lia; fit.
  Qed.

  (** ** Trend *)
  Theorem shinohara_windowed w : windowed3 (fun h l c => shinohara h l c w) (w + 1).
  Proof.
    start shinohara. last1. apply st_combine.
    - padw. replace (i - w) with (i - (w - 1) - 1) by lia. replace (j - w) with (j - (w - 1) - 1) by lia.
      apply st_map, st_zip3; [apply st_tail|apply st_tail|apply st_init]; try lia; apply st_map, st_windows; try lia; fit.
    - padw. apply st_map, st_zip3; apply st_map, st_windows; try lia; fit.
  Qed.
  Theorem vortex_windowed w : windowed3 (fun h l c => vortex h l c w) (w + 1).
  Proof.
    unfold windowed3, vortex, bar_pairs. both. last1. padw. apply st_map, st_windows1; try lia. apply st_map, st_zip5;
    first [apply st_init; [lia|]; fit | apply st_tail; [lia|]; fit].
  Qed.
  Theorem rwi_windowed w : windowed3 (fun h l c => rwi h l c w) (w + 1).
  Proof.
    start rwi. last1. padw. apply st_map, st_zip3; (apply st_windows1; try lia); try (apply st_tail; [lia|]; fit).
    eapply true_range_tail; eauto; try lia; fit.
  Qed.
  Theorem aroon_windowed w : windowed2 (fun h l => aroon h l w) (w + 1).
  Proof.
    start aroon. last1. padw. apply st_map, st_combine.
    - pose proof (st_windows (w + 1) _ _ _ _ 1 ltac:(lia) ltac:(lia) ltac:(eapply st_le; [|exact H1]; lia)) as S. now rewrite Nat.add_sub in S.
    - pose proof (st_windows (w + 1) _ _ _ _ 1 ltac:(lia) ltac:(lia) ltac:(eapply st_le; [|exact H2]; lia)) as S. now rewrite Nat.add_sub in S.
  Qed.
End Local3.

Section Local4.
  Context {F : Type} {FO : FOps F}.
  Local Open Scope F_scope.
  Local Open Scope nat_scope.

  Theorem ulcer_windowed w : windowed (fun d => ulcer d w) (2 * w - 1).
  Proof.
    start ulcer. last1. padw. apply st_map. eapply sma_tail; eauto. apply st_map, st_combine.
    - apply st_map, st_windows; try lia. fit.
    - apply st_skip; try lia; fit.
  Qed.
  Lemma st_back {A} k (a b : list A) i j m : 0 < m -> same_tail (m + k) a i b j -> same_tail m a (i - k) b (j - k).
  Proof.
    intros Hm (H1 & H2 & H3 & H4 & H5). repeat split; try lia. intros t Ht. specialize (H5 (k + t) ltac:(lia)).
    now replace (i - k - t) with (i - (k + t)) by lia; replace (j - k - t) with (j - (k + t)) by lia.
  Qed.
  Theorem dpo_windowed w : windowed (fun d => dpo d w None) w.
  Proof.
    unfold windowed, dpo. cbn [unwrap_or ma]. both. last1. padw. apply st_map, st_combine.
    - replace (i - (w - 1)) with (i - (w / 2 + 1) - (w - (w / 2 + 1) - 1)) by lia.
      replace (j - (w - 1)) with (j - (w / 2 + 1) - (w - (w / 2 + 1) - 1)) by lia.
      apply st_skip; try lia. apply st_back; [lia|]. fit.
    - apply st_skip; try lia. eapply sma_tail; eauto; try lia; fit.
  Qed.
  Theorem si_windowed limit : windowed4 (fun o h l c => si o h l c limit) 2.
  Proof.
    unfold windowed4, si, swing. both. last1. apply st_conss; try lia. apply st_map. unfold zip6, zip5, zip4, zip3.
    repeat apply st_combine. apply st_init; [lia|]. fit.  apply st_tail; [lia|]; fit.  apply st_tail; [lia|]; fit.  apply st_tail; [lia|]; fit. apply st_init; [lia|]; fit. apply st_tail; [lia|]; fit.
  Qed.
  Theorem cfo_windowed w : 0 < w -> windowed (fun d => cfo d w) w.
  Proof. intros Hw. start cfo. last1. apply st_map, st_combine; [eapply lrf_tail; eauto; try lia|]; fit. Qed.
  Lemma hlc_windows_tail (h1 l1 c1 : list F) o1 (h2 l2 c2 : list F) o2 w i j m : 0 < w -> 0 < m -> hlc_windows h1 l1 c1 w = Ok o1 -> hlc_windows h2 l2 c2 w = Ok o2 ->
    same_tail (m + w - 1) h1 i h2 j -> same_tail (m + w - 1) l1 i l2 j -> same_tail (m + w - 1) c1 i c2 j ->
    same_tail m o1 (i - (w - 1)) o2 (j - (w - 1)).
  Proof.
    intros Hw Hm. unfold hlc_windows. both. apply st_zip3; [apply st_windows|apply st_windows|apply st_skip]; try lia; fit.
  Qed.
  Theorem wpr_windowed w : windowed3 (fun h l c => wpr h l c w) w.
  Proof. start wpr. last1. padw. apply st_map. eapply hlc_windows_tail; eauto; try lia; fit. Qed.
  Theorem ultimate_windowed w1 w2 w3 : windowed3 (fun h l c => ultimate h l c w1 w2 w3) (w3 + 1).
  Proof.
    start ultimate. last1. padw. eapply st_rmap; [|eassumption|eassumption]. apply st_windows1; try lia.
    apply st_map, st_zip4; first [apply st_init; [lia|]; fit | apply st_tail; [lia|]; fit].
  Qed.
  Theorem tii_windowed w : 0 < w -> windowed (fun d => tii d w) (w + div_ceil2 w - 1).
  Proof.
    intros Hw. start tii. last1. padw. apply st_map, st_windows; try lia. apply st_map, st_combine; [eapply sma_tail; eauto; try lia|]; fit.
  Qed.
  Theorem stochastic_windowed w : 0 < w -> windowed3 (fun h l c => stochastic h l c w) (w + 4).
  Proof.
    intros Hw. unfold windowed3, stochastic, stoch. both. last1. apply st_combine.
    - padw. eapply sma_tail; eauto. apply st_map. eapply hlc_windows_tail; eauto; try lia; fit.
    - padw. replace (i - (w - 1 + (3 - 1))) with (i - (w - 1) - (3 - 1)) by lia. replace (j - (w - 1 + (3 - 1))) with (j - (w - 1) - (3 - 1)) by lia.
      eapply sma_tail; eauto; try lia. apply st_skip; try lia. eapply sma_tail; eauto; try lia. apply st_map. eapply hlc_windows_tail; eauto; try lia; fit.
  Qed.
  Theorem relative_vigor_windowed w : 0 < w -> windowed4 (fun o h l c => relative_vigor o h l c w) (w + 3).
  Proof.
    intros Hw. unfold windowed4, relative_vigor. both. last1. padw. change 3 with (4 - 1). apply st_map, st_combine; eapply sma_tail; eauto; try lia;
    apply st_map, st_windows; try lia; apply st_map, st_combine; fit.
  Qed.
  Lemma coppock_tail d1 d2 o1 o2 short long i j m : 0 < m -> short <= long -> rmap (coppock_at d1 short long) (seq long (length d1 - long)) = Ok o1 ->
    rmap (coppock_at d2 short long) (seq long (length d2 - long)) = Ok o2 -> same_tail (m + long) d1 i d2 j ->
    same_tail m o1 (i - long) o2 (j - long).
  Proof.
    intros Hm Hs E1 E2 (A1 & A2 & A3 & A4 & A5).
    pose proof (length_rmap E1) as L1. pose proof (length_rmap E2) as L2. rewrite seq_length in *.
    repeat split; try lia. intros t Ht.
    destruct (rmap_nth E1 (@nth_error_seq long (length d1 - long) (i - long - t) ltac:(lia))) as (y & Ey & ->).
    destruct (rmap_nth E2 (@nth_error_seq long (length d2 - long) (j - long - t) ltac:(lia))) as (z & Ez & ->).
    revert Ey Ez. unfold coppock_at.
    replace (long + (i - long - t)) with (i - t) by lia. replace (long + (j - long - t)) with (j - t) by lia.
    unfold idx, usub. rewrite !(proj2 (Nat.leb_le _ _)) by lia. cbn [bind].
    replace (i - t - short) with (i - (t + short)) by lia. replace (j - t - short) with (j - (t + short)) by lia.
    replace (i - t - long) with (i - (t + long)) by lia. replace (j - t - long) with (j - (t + long)) by lia.
    rewrite !A5 by lia. congruence.
  Qed.
  Theorem coppock_windowed w short long : 0 < w -> short <= long -> windowed (fun d => coppock d w short long) (w + long).
  Proof.
    intros Hw Hs. start coppock. last1. padw. eapply wma_tail; eauto. eapply coppock_tail; eauto; try lia; fit.
  Qed.
  Theorem psych_windowed w : windowed (fun d => psych d w) (w + 1).
  Proof. start psych. last1. padw. apply st_map, st_windows1; try lia. apply st_map, st_prs; try lia. fit. Qed.
  Theorem cci_windowed w : windowed3 (fun h l c => cci h l c w) w.
  Proof. start cci. last1. apply st_padded; try lia. apply st_map, st_zip3; fit. Qed.
  Theorem hull_windowed w s : s = N.to_nat (ftoN (ffloor (fsqrt (@fofnat F FO w)))) -> 0 < w -> 0 < s ->
    windowed (fun d => hull d w) (w + s - 1).
  Proof.
    intros -> Hw Hs. start hull. intros. last1. eapply wma_tail; [lia|eassumption|eassumption|].
    assert (D : div_ceil2 w <= w) by (unfold div_ceil2; apply Nat.div_le_upper_bound; lia).
    apply st_map, st_combine; eapply wma_tail; eauto; try lia; fit.
  Qed.
End Local4.
