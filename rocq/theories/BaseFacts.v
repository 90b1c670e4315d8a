(** * BaseFacts: lemmas about the list vocabulary of Base.v *)

From Verif Require Export Spec.
From Coq Require Import ZifyBool ZifyNat.

(** ** lengths *)

Lemma length_pad {A} k (x : A) : length (pad k x) = k.
Proof. apply repeat_length. Qed.

Lemma length_windows {A} w (l : list A) : length (windows w l) = length l + 1 - w.
Proof. unfold windows. now rewrite map_length, seq_length. Qed.

Lemma length_scan {S A B} (f : S -> A -> S * B) s l : length (scan f s l) = length l.
Proof.
  revert s; induction l as [|a l IH]; intros s; cbn; [easy|].
  destruct (f s a); cbn; now rewrite IH.
Qed.

Lemma length_zip2 {A B} (a : list A) (b : list B) :
  length (zip2 a b) = Nat.min (length a) (length b).
Proof. apply combine_length. Qed.
Lemma length_zip3 {A B C} (a : list A) (b : list B) (c : list C) :
  length (zip3 a b c) = Nat.min (Nat.min (length a) (length b)) (length c).
Proof. unfold zip3. now rewrite !combine_length. Qed.
Lemma length_zip4 {A B C D} (a : list A) (b : list B) (c : list C) (d : list D) :
  length (zip4 a b c d) =
  Nat.min (Nat.min (Nat.min (length a) (length b)) (length c)) (length d).
Proof. unfold zip4. now rewrite combine_length, length_zip3. Qed.
Lemma length_zip5 {A B C D E} (a : list A) (b : list B) (c : list C) (d : list D) (e : list E) :
  length (zip5 a b c d e) =
  Nat.min (Nat.min (Nat.min (Nat.min (length a) (length b)) (length c)) (length d)) (length e).
Proof. unfold zip5. now rewrite combine_length, length_zip4. Qed.
Lemma length_zip6 {A B C D E G} (a : list A) (b : list B) (c : list C) (d : list D)
  (e : list E) (g : list G) :
  length (zip6 a b c d e g) =
  Nat.min (Nat.min (Nat.min (Nat.min (Nat.min (length a) (length b)) (length c)) (length d))
             (length e)) (length g).
Proof. unfold zip6. now rewrite combine_length, length_zip5. Qed.

Lemma length_enumerate {A} (l : list A) : length (enumerate l) = length l.
Proof. unfold enumerate. rewrite combine_length, seq_length. lia. Qed.

Lemma length_upd {A} (l : list A) i x : length (upd l i x) = length l.
Proof. revert i; induction l as [|a l IH]; intros [|i]; cbn; auto. Qed.

Lemma length_rmap {A B} (f : A -> result B) l o : rmap f l = Ok o -> length o = length l.
Proof.
  revert o; induction l as [|a l IH]; cbn; intros o H; [now injection H as <-|].
  destruct (f a); cbn in H; [|easy]. destruct (rmap f l) as [r|]; cbn in H; [|easy].
  injection H as <-; cbn. f_equal. now apply IH.
Qed.

Lemma length_rscan {S A B} (f : S -> A -> result (S * B)) s l o :
  rscan f s l = Ok o -> length o = length l.
Proof.
  revert s o; induction l as [|a l IH]; cbn; intros s o H; [now injection H as <-|].
  destruct (f s a) as [[s' b]|]; cbn in H; [|easy].
  destruct (rscan f s' l) as [r|] eqn:E; cbn in H; [|easy].
  injection H as <-; cbn. f_equal. now apply (IH s').
Qed.

(** ** nth_error *)

Lemma nth_error_pad {A} k (x : A) i : i < k -> nth_error (pad k x) i = Some x.
Proof. intros H. now apply nth_error_repeat. Qed.

Lemma nth_error_map' {A B} (f : A -> B) l i :
  nth_error (map f l) i = match nth_error l i with Some a => Some (f a) | None => None end.
Proof.
  revert i; induction l as [|a l IH]; intros [|i]; cbn; auto.
Qed.

Lemma nth_error_combine {A B} (a : list A) (b : list B) i :
  nth_error (combine a b) i =
  match nth_error a i, nth_error b i with Some x, Some y => Some (x, y) | _, _ => None end.
Proof.
  revert b i; induction a as [|x a IH]; intros [|y b] [|i]; cbn; auto.
  - now destruct (nth_error a i).
Qed.

Lemma nth_error_skipn {A} (l : list A) k i : nth_error (skipn k l) i = nth_error l (k + i).
Proof.
  revert k; induction l as [|a l IH]; intros [|k]; cbn; auto.
  now destruct i.
Qed.

Lemma nth_error_firstn {A} (l : list A) k i : i < k -> nth_error (firstn k l) i = nth_error l i.
Proof.
  revert k i; induction l as [|a l IH]; intros [|k] [|i] H; cbn; auto; try lia.
  apply IH; lia.
Qed.

Lemma nth_error_seq a n i : i < n -> nth_error (seq a n) i = Some (a + i).
Proof.
  revert a i; induction n as [|n IH]; intros a [|i] H; cbn; try lia.
  - f_equal; lia.
  - rewrite IH by lia. f_equal; lia.
Qed.

Lemma nth_error_windows {A} w (l : list A) i :
  i < length l + 1 - w -> nth_error (windows w l) i = Some (firstn w (skipn i l)).
Proof.
  intros H. unfold windows. rewrite nth_error_map', nth_error_seq by easy. reflexivity.
Qed.

Lemma nth_error_is_Some {A} (l : list A) i : i < length l -> exists a, nth_error l i = Some a.
Proof.
  intros H. destruct (nth_error l i) eqn:E; eauto. apply nth_error_None in E; lia.
Qed.

Lemma nth_error_ext {A} (a b : list A) : (forall i, nth_error a i = nth_error b i) -> a = b.
Proof.
  revert b; induction a as [|x a IH]; intros [|y b] H; auto.
  - specialize (H 0); discriminate.
  - specialize (H 0); discriminate.
  - pose proof (H 0) as H0; cbn in H0; injection H0 as ->. f_equal. apply IH.
    intros i. exact (H (S i)).
Qed.

(** ** win *)

Lemma length_win {A} w (l : list A) i : w <= i + 1 -> i < length l -> length (win w l i) = w.
Proof. intros H1 H2. unfold win. rewrite firstn_length, skipn_length. lia. Qed.

(** [win] is what its name says: item [j] of the window is item [i+1-w+j]. *)
Lemma nth_error_win {A} w (l : list A) i j :
  j < w -> nth_error (win w l i) j = nth_error l (i + 1 - w + j).
Proof.
  intros H. unfold win. rewrite nth_error_firstn by easy. apply nth_error_skipn.
Qed.

Lemma nth_error_windows_win {A} w (l : list A) i :
  0 < w -> w - 1 <= i < length l -> nth_error (windows w l) (i - (w - 1)) = Some (win w l i).
Proof.
  intros Hw H. rewrite nth_error_windows by lia. unfold win. do 3 f_equal. lia.
Qed.

Lemma In_windows {A} w (l : list A) x :
  In x (windows w l) <-> exists i, i < length l + 1 - w /\ x = firstn w (skipn i l).
Proof.
  unfold windows. rewrite in_map_iff. split.
  - intros [i [<- H]]. apply in_seq in H. exists i; split; [lia|easy].
  - intros [i [H ->]]. exists i; split; [easy|]. apply in_seq; lia.
Qed.

Lemma windows_length {A} w (l : list A) x : 0 < w -> In x (windows w l) -> length x = w.
Proof.
  intros Hw H. apply In_windows in H as [i [Hi ->]].
  rewrite firstn_length, skipn_length. lia.
Qed.

Lemma windows_map {A B} (f : A -> B) w l : windows w (map f l) = map (map f) (windows w l).
Proof.
  unfold windows. rewrite map_length, map_map. apply map_ext. intros i.
  now rewrite skipn_map, firstn_map.
Qed.

(** ** aligned *)

Lemma aligned_pad_map {A B} (na : B) (g : A -> B) (l : list A) k n (f : nat -> B) :
  length l = n - k ->
  (forall i, k <= i < n -> exists a, nth_error l (i - k) = Some a /\ g a = f i) ->
  aligned (pad k na ++ map g l) n k na f.
Proof.
  intros Hl Hf. split; [|split].
  - rewrite app_length, length_pad, map_length. lia.
  - intros i Hi. rewrite nth_error_app1 by (rewrite length_pad; lia).
    now apply nth_error_pad.
  - intros i Hi. rewrite nth_error_app2 by (rewrite length_pad; lia).
    rewrite length_pad, nth_error_map'. destruct (Hf i Hi) as [a [-> ->]]. reflexivity.
Qed.

Lemma aligned_windows {A B} (na : B) (g : list A -> B) (l : list A) w :
  0 < w ->
  aligned (pad (w - 1) na ++ map g (windows w l)) (length l) (w - 1) na
          (fun i => g (win w l i)).
Proof.
  intros Hw. apply aligned_pad_map.
  - rewrite length_windows. lia.
  - intros i Hi. exists (win w l i). split; [|easy].
    now apply nth_error_windows_win.
Qed.

Lemma aligned_ext {B} (o : list B) n k na f g :
  (forall i, k <= i < n -> f i = g i) -> aligned o n k na f -> aligned o n k na g.
Proof.
  intros E (H1 & H2 & H3). split; [easy|split; [easy|]].
  intros i Hi. rewrite <- E by easy. now apply H3.
Qed.

Lemma aligned_warm {B} (o : list B) n k na f : aligned o n k na f -> warm o k na.
Proof. intros (_ & H & _) i Hi _. now apply H. Qed.

Lemma warm_pad_app {B} k (na : B) l : warm (pad k na ++ l) k na.
Proof.
  intros i Hi _. rewrite nth_error_app1 by (rewrite length_pad; lia). now apply nth_error_pad.
Qed.

(** ** outcome *)

Lemma outcome_panic {A} (r : result (list A)) bad n : outcome r bad n -> (r = Panic <-> bad).
Proof.
  intros [[H ->]|[H (o & -> & _)]]; split; intros; easy.
Qed.
Lemma outcome_length {A} (r : result (list A)) bad n o :
  outcome r bad n -> r = Ok o -> length o = n.
Proof.
  intros [[H ->]|[H (o' & -> & L)]] E; [easy|]. now injection E as <-.
Qed.
Lemma outcome_iff {A} (r : result (list A)) (b1 b2 : Prop) n m :
  (b1 <-> b2) -> (~ b2 -> n = m) -> outcome r b1 n -> outcome r b2 m.
Proof.
  intros H E [[B P]|[B (o & P & L)]]; [left|right]; split; try tauto.
  exists o. split; [easy|]. rewrite L. apply E. tauto.
Qed.

(** ** prefix *)

Lemma prefix_refl {A} (a : list A) : prefix a a.
Proof. exists []. now rewrite app_nil_r. Qed.
Lemma prefix_nil {A} (a : list A) : prefix [] a.
Proof. now exists a. Qed.
Lemma prefix_trans {A} (a b c : list A) : prefix a b -> prefix b c -> prefix a c.
Proof. intros [x ->] [y ->]. exists (x ++ y). now rewrite app_assoc. Qed.
Lemma prefix_app_l {A} (p a b : list A) : prefix a b -> prefix (p ++ a) (p ++ b).
Proof. intros [x ->]. exists x. now rewrite app_assoc. Qed.
Lemma prefix_cons {A} (x : A) a b : prefix a b -> prefix (x :: a) (x :: b).
Proof. intros [c ->]. now exists c. Qed.
Lemma prefix_map {A B} (f : A -> B) a b : prefix a b -> prefix (map f a) (map f b).
Proof. intros [c ->]. exists (map f c). apply map_app. Qed.
Lemma prefix_length {A} (a b : list A) : prefix a b -> length a <= length b.
Proof. intros [c ->]. rewrite app_length. lia. Qed.
Lemma prefix_combine {A B} (a a' : list A) (b b' : list B) :
  prefix a a' -> prefix b b' -> prefix (combine a b) (combine a' b').
Proof.
  intros [x ->] [y ->]. revert b; induction a as [|p a IH]; intros [|q b]; cbn.
  - apply prefix_nil.
  - apply prefix_nil.
  - apply prefix_nil.
  - apply prefix_cons, IH.
Qed.
Lemma prefix_zip2 {A B} (a a' : list A) (b b' : list B) :
  prefix a a' -> prefix b b' -> prefix (zip2 a b) (zip2 a' b').
Proof. apply prefix_combine. Qed.
Lemma prefix_zip3 {A B C} (a a' : list A) (b b' : list B) (c c' : list C) :
  prefix a a' -> prefix b b' -> prefix c c' -> prefix (zip3 a b c) (zip3 a' b' c').
Proof. intros. unfold zip3. auto using prefix_combine. Qed.
Lemma prefix_zip4 {A B C D} (a a' : list A) (b b' : list B) (c c' : list C) (d d' : list D) :
  prefix a a' -> prefix b b' -> prefix c c' -> prefix d d' ->
  prefix (zip4 a b c d) (zip4 a' b' c' d').
Proof. intros. unfold zip4. auto using prefix_combine, prefix_zip3. Qed.
Lemma prefix_zip5 {A B C D E} (a a' : list A) (b b' : list B) (c c' : list C) (d d' : list D)
  (e e' : list E) :
  prefix a a' -> prefix b b' -> prefix c c' -> prefix d d' -> prefix e e' ->
  prefix (zip5 a b c d e) (zip5 a' b' c' d' e').
Proof. intros. unfold zip5. auto using prefix_combine, prefix_zip4. Qed.
Lemma prefix_zip6 {A B C D E G} (a a' : list A) (b b' : list B) (c c' : list C) (d d' : list D)
  (e e' : list E) (g g' : list G) :
  prefix a a' -> prefix b b' -> prefix c c' -> prefix d d' -> prefix e e' -> prefix g g' ->
  prefix (zip6 a b c d e g) (zip6 a' b' c' d' e' g').
Proof. intros. unfold zip6. auto using prefix_combine, prefix_zip5. Qed.
Lemma prefix_skipn {A} k (a b : list A) : prefix a b -> prefix (skipn k a) (skipn k b).
Proof.
  intros [c ->]. rewrite skipn_app. eexists. reflexivity.
Qed.
Lemma prefix_firstn_len {A} k m (a b : list A) :
  prefix a b -> k <= length a -> k <= m -> prefix (firstn k a) (firstn m b).
Proof.
  intros [c ->] H Hm. rewrite firstn_app.
  exists (skipn k (firstn m a) ++ firstn (m - length a) c).
  rewrite app_assoc. f_equal.
  rewrite <- (firstn_skipn k (firstn m a)) at 1. f_equal.
  rewrite firstn_firstn. f_equal. lia.
Qed.
Lemma prefix_firstn_eq {A} k (a b : list A) :
  prefix a b -> k <= length a -> firstn k a = firstn k b.
Proof.
  intros [c ->] H. rewrite firstn_app. replace (k - length a) with 0 by lia.
  now rewrite firstn_O, app_nil_r.
Qed.
Lemma prefix_nth_error {A} (a b : list A) i x :
  prefix a b -> nth_error a i = Some x -> nth_error b i = Some x.
Proof.
  intros [c ->] H. rewrite nth_error_app1; [easy|]. apply nth_error_Some. congruence.
Qed.
Lemma prefix_seq a n m : n <= m -> prefix (seq a n) (seq a m).
Proof. intros H. exists (seq (a + n) (m - n)). rewrite <- seq_app. f_equal; lia. Qed.
Lemma prefix_windows {A} w (a b : list A) : prefix a b -> prefix (windows w a) (windows w b).
Proof.
  intros H. unfold windows. pose proof (prefix_length H) as L.
  exists (map (fun i => firstn w (skipn i b))
              (seq (length a + 1 - w) ((length b + 1 - w) - (length a + 1 - w)))).
  replace (length b + 1 - w) with
    ((length a + 1 - w) + ((length b + 1 - w) - (length a + 1 - w))) at 1 by lia.
  rewrite seq_app, map_app. f_equal.
  apply map_ext_in. intros i Hi. apply in_seq in Hi. symmetry.
  apply prefix_firstn_eq.
  - now apply prefix_skipn.
  - rewrite skipn_length. lia.
Qed.
Lemma prefix_scan {S A B} (f : S -> A -> S * B) s a b :
  prefix a b -> prefix (scan f s a) (scan f s b).
Proof.
  intros [c ->]. revert s; induction a as [|x a IH]; intros s; cbn; [apply prefix_nil|].
  destruct (f s x). apply prefix_cons, IH.
Qed.
Lemma prefix_enumerate {A} (a b : list A) : prefix a b -> prefix (enumerate a) (enumerate b).
Proof.
  intros H. apply prefix_combine; [|easy]. apply prefix_seq, prefix_length, H.
Qed.
Lemma prefix_filter {A} (f : A -> bool) a b : prefix a b -> prefix (filter f a) (filter f b).
Proof. intros [c ->]. rewrite filter_app. eexists; reflexivity. Qed.

(** ** keeps *)

Lemma keeps_Ok {A} (a b : list A) : prefix a b -> keeps (Ok a) (Ok b).
Proof. intros H o [= <-]. eauto. Qed.

(** Composition: a bind whose first part keeps. *)
Lemma keeps_bind {A B} (r1 r2 : result (list A)) (k1 k2 : list A -> result (list B)) :
  keeps r1 r2 ->
  (forall a b, r1 = Ok a -> r2 = Ok b -> prefix a b -> keeps (k1 a) (k2 b)) ->
  keeps (bind r1 k1) (bind r2 k2).
Proof.
  intros H1 H2. destruct r1 as [a|]; [|easy].
  destruct (H1 a eq_refl) as (b & -> & P). cbn. now apply H2.
Qed.
(** A bind on a value that both sides compute alike. *)
Lemma keeps_bind_same {A B} (r1 r2 : result A) (k1 k2 : A -> result (list B)) :
  (forall a, r1 = Ok a -> r2 = Ok a) ->
  (forall a, r1 = Ok a -> keeps (k1 a) (k2 a)) ->
  keeps (bind r1 k1) (bind r2 k2).
Proof.
  intros H1 H2. destruct r1 as [a|]; [|easy]. rewrite (H1 a eq_refl). cbn. now apply H2.
Qed.
Lemma keeps_slice_from {A} (a b : list A) k :
  prefix a b -> keeps (slice_from a k) (slice_from b k).
Proof.
  intros H. unfold slice_from. pose proof (prefix_length H).
  destruct (k <=? length a) eqn:E; [|easy].
  replace (k <=? length b) with true by lia. apply keeps_Ok. now apply prefix_skipn.
Qed.
Lemma keeps_rwindows {A} (a b : list A) w : prefix a b -> keeps (rwindows w a) (rwindows w b).
Proof.
  intros H. unfold rwindows. destruct (w =? 0); [easy|].
  apply keeps_Ok. now apply prefix_windows.
Qed.
Lemma slice_to_same {A} (a b : list A) k o :
  prefix a b -> slice_to a k = Ok o -> slice_to b k = Ok o.
Proof.
  intros H. unfold slice_to. pose proof (prefix_length H).
  destruct (k <=? length a) eqn:E; [|easy]. intros [= <-].
  replace (k <=? length b) with true by lia. f_equal. symmetry.
  apply prefix_firstn_eq; [easy|lia].
Qed.
Lemma idx_same {A} (a b : list A) k o : prefix a b -> idx a k = Ok o -> idx b k = Ok o.
Proof.
  intros H. unfold idx. destruct (nth_error a k) eqn:E; [|easy]. intros [= <-].
  now rewrite (prefix_nth_error H E).
Qed.
(** [&x[..x.len()-1]] *)
Lemma keeps_init {A B} (a b : list A) (k1 k2 : list A -> result (list B)) :
  prefix a b ->
  (forall a' b', prefix a' b' -> keeps (k1 a') (k2 b')) ->
  keeps (let* n := usub (length a) 1 in let* c := slice_to a n in k1 c)
        (let* n := usub (length b) 1 in let* c := slice_to b n in k2 c).
Proof.
  intros H K. pose proof (prefix_length H) as L. unfold usub, slice_to.
  destruct (1 <=? length a) eqn:E1; [|easy].
  replace (1 <=? length b) with true by lia. cbn [bind].
  replace (length a - 1 <=? length a) with true by lia.
  replace (length b - 1 <=? length b) with true by lia. cbn [bind].
  apply K. apply prefix_firstn_len; [easy|lia|lia].
Qed.
Lemma keeps_rmap {A B} (f : A -> result B) a b :
  prefix a b -> (forall x, In x b -> f x <> Panic) -> keeps (rmap f a) (rmap f b).
Proof.
  intros [c ->] Hf. induction a as [|x a IH].
  - intros o [= <-]. cbn [app].
    assert (exists o2, rmap f c = Ok o2) as [o2 ->].
    { clear -Hf. induction c as [|y c IH]; [now exists []|]. cbn.
      destruct (f y) eqn:E; [|exfalso; apply (Hf y); [now left|easy]].
      destruct IH as [o ->]; [intros z Hz; apply Hf; now right|]. cbn. eauto. }
    eexists; split; [reflexivity|apply prefix_nil].
  - cbn. destruct (f x) as [y|] eqn:E; [|easy]. cbn.
    assert (K : keeps (rmap f a) (rmap f (a ++ c))) by (apply IH; intros z Hz; apply Hf; now right).
    intros o H. destruct (rmap f a) as [r|]; cbn in H; [|easy]. injection H as <-.
    destruct (K r eq_refl) as (o2 & -> & P). cbn. eexists; split; [reflexivity|].
    now apply prefix_cons.
Qed.
(** If the longer run returns, so did the shorter one, with a prefix. *)
Lemma prefix_rmap {A B} (f : A -> result B) a b oa ob :
  prefix a b -> rmap f a = Ok oa -> rmap f b = Ok ob -> prefix oa ob.
Proof.
  intros [c ->]. revert oa ob; induction a as [|x a IH]; cbn; intros oa ob Ha Hb.
  - injection Ha as <-. apply prefix_nil.
  - destruct (f x) as [y|]; cbn in *; [|easy].
    destruct (rmap f a) as [r|]; cbn in Ha; [|easy].
    destruct (rmap f (a ++ c)) as [r2|]; cbn in Hb; [|easy].
    injection Ha as <-; injection Hb as <-. apply prefix_cons. now apply IH.
Qed.
Lemma prefix_rscan {S A B} (f : S -> A -> result (S * B)) s a b oa ob :
  prefix a b -> rscan f s a = Ok oa -> rscan f s b = Ok ob -> prefix oa ob.
Proof.
  intros [c ->]. revert s oa ob; induction a as [|x a IH]; cbn; intros s oa ob Ha Hb.
  - injection Ha as <-. apply prefix_nil.
  - destruct (f s x) as [[s' y]|]; cbn in *; [|easy].
    destruct (rscan f s' a) as [r|] eqn:Ea; cbn in Ha; [|easy].
    destruct (rscan f s' (a ++ c)) as [r2|] eqn:Eb; cbn in Hb; [|easy].
    injection Ha as <-; injection Hb as <-. apply prefix_cons. now apply (IH s').
Qed.

(** ** rmap and rscan that never panic *)

Lemma rmap_Ok_map {A B} (f : A -> result B) (g : A -> B) l :
  (forall x, In x l -> f x = Ok (g x)) -> rmap f l = Ok (map g l).
Proof.
  induction l as [|x l IH]; intros H; cbn; [easy|].
  rewrite H by now left. cbn. rewrite IH by (intros; apply H; now right). reflexivity.
Qed.
Lemma rmap_no_panic {A B} (f : A -> result B) l :
  (forall x, In x l -> f x <> Panic) -> exists o, rmap f l = Ok o.
Proof.
  induction l as [|x l IH]; intros H; cbn; [eauto|].
  destruct (f x) eqn:E; [|exfalso; apply (H x); [now left|easy]].
  destruct IH as [o ->]; [intros; apply H; now right|]. cbn; eauto.
Qed.
Lemma rmap_panic_iff {A B} (f : A -> result B) l :
  rmap f l = Panic <-> exists x, In x l /\ f x = Panic.
Proof.
  induction l as [|x l IH]; cbn; [split; [easy|now intros [? [[] _]]]|].
  destruct (f x) eqn:E; cbn.
  - destruct (rmap f l) eqn:R; cbn.
    + split; [easy|]. intros [y [[->|Hy] P]]; [congruence|].
      assert (Ok a0 = Panic) as X; [apply IH; eauto|easy].
    + split; [|easy]. intros _. destruct (proj1 IH eq_refl) as [y [Hy P]]. eauto.
  - split; [|easy]. eauto.
Qed.
Lemma rmap_nth {A B} (f : A -> result B) l o i x :
  rmap f l = Ok o -> nth_error l i = Some x -> exists y, f x = Ok y /\ nth_error o i = Some y.
Proof.
  revert o i; induction l as [|a l IH]; intros o [|i] H E; cbn in *; try easy.
  - injection E as ->. destruct (f x); cbn in H; [|easy].
    destruct (rmap f l); cbn in H; [|easy]. injection H as <-. eauto.
  - destruct (f a); cbn in H; [|easy]. destruct (rmap f l) as [r|]; cbn in H; [|easy].
    injection H as <-. cbn. now apply IH.
Qed.
Lemma rscan_Ok_scan {S A B} (f : S -> A -> result (S * B)) (g : S -> A -> S * B) s l :
  (forall s x, In x l -> f s x = Ok (g s x)) -> rscan f s l = Ok (scan g s l).
Proof.
  revert s; induction l as [|x l IH]; intros s H; cbn; [easy|].
  rewrite H by now left. cbn. destruct (g s x) as [s' b].
  rewrite IH by (intros; apply H; now right). reflexivity.
Qed.

(** ** scan, position by position *)

(** State after consuming a list. *)
Definition scan_state {S A B} (f : S -> A -> S * B) (s : S) (l : list A) : S :=
  fold_left (fun s a => fst (f s a)) l s.

Lemma nth_error_scan {S A B} (f : S -> A -> S * B) s l i a :
  nth_error l i = Some a ->
  nth_error (scan f s l) i = Some (snd (f (scan_state f s (firstn i l)) a)).
Proof.
  revert s i; induction l as [|x l IH]; intros s [|i] H; cbn in *; try easy.
  - injection H as ->. now destruct (f s a).
  - destruct (f s x) as [s' b] eqn:E. cbn. rewrite (IH s' i H). reflexivity.
Qed.
Lemma scan_state_snoc {S A B} (f : S -> A -> S * B) s l a :
  scan_state f s (l ++ [a]) = fst (f (scan_state f s l) a).
Proof. unfold scan_state. now rewrite fold_left_app. Qed.

(** When the output is the state itself: the classic recurrence. *)
Lemma scan_recurrence {S A} (g : S -> A -> S) s l i a b :
  nth_error l (1 + i) = Some a ->
  nth_error (scan (fun s x => (g s x, g s x)) s l) i = Some b ->
  nth_error (scan (fun s x => (g s x, g s x)) s l) (1 + i) = Some (g b a).
Proof.
  revert s i; induction l as [|x l IH]; intros s [|i] H1 H2; cbn in *; try easy.
  - injection H2 as <-. destruct l as [|y l]; cbn in *; [easy|]. now injection H1 as ->.
  - destruct l as [|y l]; [easy|]. now apply (IH (g s x) i).
Qed.

(** ** Miscellany *)

Lemma fold_left_map {A B C} (f : A -> B -> A) (g : C -> B) l a :
  fold_left f (map g l) a = fold_left (fun a x => f a (g x)) l a.
Proof. revert a; induction l; cbn; auto. Qed.

Lemma div_ceil2_spec n : 2 * div_ceil2 n = n \/ 2 * div_ceil2 n = n + 1.
Proof.
  unfold div_ceil2. pose proof (Nat.div_mod (n + 1) 2). pose proof (Nat.mod_upper_bound (n+1) 2).
  lia.
Qed.
Arguments div_ceil2_spec n : clear implicits.
