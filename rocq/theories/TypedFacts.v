(** * TypedFacts: integer series give what the same numbers give as [f64]. *)

From Coq Require Import Reals Lra Lia ZArith.
From Flocq Require Import Core IEEE754.BinarySingleNaN.
From Verif Require Import Base BaseFacts Num B64 XReal Typed F64.
Local Unset Implicit Arguments.

Definition bmap {A B} (f : A -> B) (r : result A) : result B := match r with Ok a => Ok (f a) | Panic => Panic end.

Section Agree.
  Context {F : Type} {FO : FOps F} {T : Type}.
  Variable cmp : T -> T -> option comparison.
  Variable conv : T -> F.

  (** On the elements of [data] the comparisons of [T] and those of the
      converted values agree. *)
  Definition agrees (data : list T) : Prop := forall a b, In a data -> In b data ->
    fltb (conv a) (conv b) = tlt cmp a b /\ feqb (conv a) (conv b) = negb (tne cmp a b) /\ fisnan (conv a) = tnan cmp a.

  Lemma idx_conv (l : list T) i : idx (map conv l) i = bmap conv (idx l i).
  Proof. unfold idx. rewrite nth_error_map. now destruct (nth_error l i). Qed.
  Lemma upd_conv l : forall i x, upd (map conv l) i (conv x) = map conv (upd l i x).
  Proof. induction l as [|a l IH]; intros [|i] x; cbn; auto. now rewrite IH. Qed.
  Lemma swap_conv l i j : swap (map conv l) i j = bmap (map conv) (swap l i j).
  Proof.
    unfold swap. rewrite !idx_conv. destruct (idx l i); cbn [bind bmap]; [|easy]. destruct (idx l j); cbn [bind bmap]; [|easy]. now rewrite !upd_conv.
  Qed.

  Section Sub.
    Variable P : T -> Prop.
    Hypothesis HP : forall a b, P a -> P b -> fltb (conv a) (conv b) = tlt cmp a b.
    Lemma idx_P l i x : Forall P l -> idx l i = Ok x -> P x.
    Proof.
      intros H. unfold idx. destruct (nth_error l i) eqn:E; [|easy]. intros [= <-]. apply nth_error_In in E. now apply (proj1 (Forall_forall P l) H).
    Qed.
    Lemma upd_P l : forall i x, Forall P l -> P x -> Forall P (upd l i x).
    Proof. induction l as [|a l IH]; intros [|i] x H Hx; cbn; auto; apply Forall_cons_iff in H as [? ?]; constructor; auto. Qed.
    Lemma swap_P l i j l' : Forall P l -> swap l i j = Ok l' -> Forall P l'.
    Proof.
      intros H. unfold swap. destruct (idx l i) eqn:E1; cbn [bind]; [|easy]. destruct (idx l j) eqn:E2; cbn [bind]; [|easy]. intros [= <-].
      apply upd_P; [apply upd_P; [easy|]|]; eapply idx_P; eassumption.
    Qed.
    Lemma lomuto_conv p js : P p -> forall l i, Forall P l ->
      lomuto fltb (conv p) js (map conv l) i = bmap (fun '(d, k) => (map conv d, k)) (lomuto (tlt cmp) p js l i) /\
      forall d k, lomuto (tlt cmp) p js l i = Ok (d, k) -> Forall P d.
    Proof.
      intros Hp. induction js as [|j js IH]; intros l i H; cbn [lomuto]; [split; [easy|]; now intros ? ? [= <- _]|].
      rewrite idx_conv. destruct (idx l j) as [x|] eqn:E; cbn [bind bmap]; [|easy].
      rewrite HP by (try easy; eapply idx_P; eassumption). destruct (tlt cmp x p); [|now apply IH].
      rewrite swap_conv. destruct (swap l i j) as [l'|] eqn:E2; cbn [bind bmap]; [|easy]. apply IH. eapply swap_P; eassumption.
    Qed.
    Lemma quickselect_loop_conv k fuel : forall l lo hi, Forall P l ->
      quickselect_loop fltb fuel (map conv l) k lo hi = option_map (bmap (fun '(d, x) => (map conv d, conv x))) (quickselect_loop (tlt cmp) fuel l k lo hi).
    Proof.
      induction fuel as [|fuel IH]; intros l lo hi H; cbn [quickselect_loop]; destruct (lo <? hi); try easy;
        try (rewrite idx_conv; destruct (idx l k); reflexivity).
      rewrite idx_conv. destruct (idx l hi) as [p|] eqn:E; cbn [bind bmap]; [|easy].
      destruct (lomuto_conv p (seq lo (hi - lo)) (idx_P l hi p H E) l lo H) as [L1 L2]. rewrite L1.
      destruct (lomuto (tlt cmp) p (seq lo (hi - lo)) l lo) as [[d i]|]; cbn [bind bmap]; [|easy]. specialize (L2 _ _ eq_refl).
      rewrite swap_conv. destruct (swap d i hi) as [d'|] eqn:E2; cbn [bind bmap]; [|easy]. pose proof (swap_P _ _ _ _ L2 E2) as L3.
      destruct (Nat.compare i k); [|now apply IH|destruct (usub i 1); [now apply IH|easy]].
      rewrite idx_conv. now destruct (idx d' k).
    Qed.
    Lemma quickselect_conv l k : Forall P l ->
      quickselect fltb (map conv l) k = bmap (fun '(d, x) => (map conv d, conv x)) (quickselect (tlt cmp) l k).
    Proof.
      intros H. unfold quickselect. rewrite map_length. destruct (usub (length l) 1); cbn [bind bmap]; [|easy].
      rewrite quickselect_loop_conv by easy. now destruct (quickselect_loop _ _ _ _ _ _).
    Qed.
  End Sub.

  Lemma agrees_incl l d : agrees d -> incl l d -> agrees l.
  Proof. intros H I a b Ha Hb. now apply H; apply I. Qed.
  Lemma window_incl (w : nat) (d : list T) x : In x (windows w d) -> incl x d.
  Proof.
    unfold windows. intros H. apply in_map_iff in H as (i & <- & _). intros a Ha.
    assert (In a (skipn i d)) by (rewrite <- (firstn_skipn w); apply in_or_app; now left).
    rewrite <- (firstn_skipn i). apply in_or_app. now right.
  Qed.
  Lemma rmap_windows {B} (f : list F -> result B) (g : list T -> result B) w d : (forall x, In x (windows w d) -> f (map conv x) = g x) ->
    rmap f (map (map conv) (windows w d)) = rmap g (windows w d).
  Proof.
    induction (windows w d) as [|x l IH]; intros H; cbn; [easy|]. rewrite H by now left. destruct (g x); cbn; [|easy]. rewrite IH; [easy|]. intros; apply H; now right.
  Qed.
  Lemma rwindows_conv w (d : list T) : rwindows w (map conv d) = bmap (map (map conv)) (rwindows w d).
  Proof. unfold rwindows. destruct (w =? 0); [easy|]. cbn. now rewrite windows_map. Qed.

  Theorem quantile_typed data w q : agrees data -> quantile_t cmp conv data w q = quantile (map conv data) w q.
  Proof.
    intros A. unfold quantile_t, quantile. destruct (usub w 1) eqn:U; cbn [bind]; [|easy]. rewrite rwindows_conv.
    unfold rwindows. destruct (w =? 0); cbn [bind bmap]; [easy|]. rewrite <- (rmap_windows (quantile_win w q) (quantile_win_t cmp conv w q)); [easy|].
    intros x Hx. apply window_incl in Hx. pose proof (agrees_incl _ _ A Hx) as Ax. unfold quantile_win, quantile_win_t. rewrite U. cbn [bind]. cbv zeta.
    assert (Q : forall k, quickselect fltb (map conv x) k = bmap (fun '(d, y) => (map conv d, conv y)) (quickselect (tlt cmp) x k)).
    { intros k. apply (quickselect_conv (fun a => In a x)); [intros; now apply Ax|]. now apply Forall_forall. }
    rewrite !Q. destruct (feqb _ _).
    - now destruct (quickselect _ _ _) as [[d y]|].
    - destruct (quickselect _ _ _) as [[d y]|]; cbn [bind bmap]; [|easy]. unfold slice_from. rewrite map_length. destruct (_ <=? _); cbn [bind]; [|easy].
      rewrite skipn_map. do 3 f_equal. generalize (@fnan F FO). induction (skipn _ d) as [|e l IH]; intros s; cbn [map fold_left]; [easy|apply IH].
  Qed.
  Theorem median_typed data w : agrees data -> median_t cmp conv data w = median (map conv data) w.
  Proof. apply quantile_typed. Qed.

  Lemma existsb_conv l d : agrees d -> incl l d -> existsb fisnan (map conv l) = existsb (tnan cmp) l.
  Proof.
    intros A I. induction l as [|a l IH]; cbn; [easy|]. rewrite IH by (intros x Hx; apply I; now right). f_equal. apply (A a a); apply I; now left.
  Qed.
  Lemma flags_conv l d : agrees d -> incl l d -> uniq_flags (map conv l) = uniq_flags_t cmp l.
  Proof.
    intros A I. destruct l as [|x l]; cbn [map uniq_flags uniq_flags_t]; [easy|]. do 2 f_equal.
    assert (Hx : In x d) by (apply I; now left). assert (Hl : incl l d) by (intros y Hy; apply I; now right). clear I. revert x Hx.
    induction l as [|y l IH]; intros x Hx; cbn [map scan]; [easy|]. assert (Hy : In y d) by (apply Hl; now left).
    rewrite IH by (try easy; intros z Hz; apply Hl; now right). f_equal. unfold fneb. destruct (A x y Hx Hy) as (_ & -> & _). apply Bool.negb_involutive.
  Qed.
  Lemma rmap_idx_conv d is_ : rmap (idx (map conv d)) is_ = bmap (map conv) (rmap (idx d) is_).
  Proof.
    induction is_ as [|i l IH]; [easy|]. cbn [rmap]. rewrite idx_conv. destruct (idx d i); cbn [bind bmap]; [|easy]. rewrite IH. now destruct (rmap (idx d) l).
  Qed.
  Lemma rmap_idx_incl (d : list T) is_ l : rmap (idx d) is_ = Ok l -> incl l d.
  Proof.
    revert l. induction is_ as [|i is_ IH]; intros l; cbn; [intros [= <-] ? []|].
    destruct (idx d i) as [x|] eqn:E; cbn; [|easy]. destruct (rmap _ is_) as [l'|]; cbn; [|easy]. intros [= <-].
    intros y [<-|Hy]; [unfold idx in E; destruct (nth_error d i) eqn:N; [|easy]; injection E as <-; now apply nth_error_In in N|now apply (IH l')].
  Qed.

  (** The sort makes the same choices: it sees only outcomes of comparisons. *)
  Definition same_sort (srt : sort_oracle F) (srt' : list T -> list nat) : Prop := forall l, agrees l -> srt' l = srt (map conv l).

  Theorem rank_typed srt srt' data mode : same_sort srt srt' -> agrees data -> rank_t cmp srt' data mode = rank srt (map conv data) mode.
  Proof.
    intros S A. unfold rank_t, rank, argsort_t, argsort. rewrite map_length, (existsb_conv data data A) by apply incl_refl. rewrite (S _ A).
    destruct ((2 <=? length data) && existsb (tnan cmp) data); cbn [bind]; [easy|].
    assert (Q : forall is_, match rmap (idx (map conv data)) is_ with Ok s => uniq_flags s | Panic => Panic end = match rmap (idx data) is_ with Ok s => uniq_flags_t cmp s | Panic => Panic end).
    { intros is_. rewrite rmap_idx_conv. destruct (rmap (idx data) is_) eqn:E; cbn [bmap]; [|easy]. apply (flags_conv _ data A). now apply rmap_idx_incl in E. }
    specialize (Q (srt (map conv data))). destruct mode as [[]|];
      try (destruct (rmap (idx (map conv data)) _), (rmap (idx data) _); cbn [bind]; rewrite ?Q; try easy; now rewrite <- Q).
  Qed.

  Lemma rmap_combine {B} (f : list F * list F -> result B) (g : list T * list T -> result B) w d1 d2 :
    (forall x y, In x (windows w d1) -> In y (windows w d2) -> f (map conv x, map conv y) = g (x, y)) ->
    rmap f (combine (map (map conv) (windows w d1)) (map (map conv) (windows w d2))) = rmap g (combine (windows w d1) (windows w d2)).
  Proof.
    generalize (windows w d1) (windows w d2). induction l as [|x l IH]; intros [|y l2] H; cbn; try easy. rewrite H by now left.
    destruct (g (x, y)); cbn; [|easy]. rewrite IH; [easy|]. intros; apply H; now right.
  Qed.
  Theorem srcc_typed srt srt' s1 s2 w : same_sort srt srt' -> agrees s1 -> agrees s2 -> srcc_t cmp srt' s1 s2 w = srcc srt (map conv s1) (map conv s2) w.
  Proof.
    intros S A1 A2. unfold srcc_t, srcc, zip_windows. destruct (usub w 1); cbn [bind]; [|easy]. rewrite !rwindows_conv. unfold rwindows.
    destruct (w =? 0); cbn [bind bmap]; [easy|]. rewrite <- (rmap_combine (srcc_win srt) (srcc_win_t cmp srt')); [easy|].
    intros x y Hx Hy. apply window_incl in Hx, Hy. unfold srcc_win, srcc_win_t. cbn [fst snd].
    rewrite !(rank_typed srt srt') by (exact S || exact (agrees_incl _ _ A1 Hx) || exact (agrees_incl _ _ A2 Hy)). reflexivity.
  Qed.
  Theorem hoeffd_typed srt srt' s1 s2 w : same_sort srt srt' -> agrees s1 -> agrees s2 -> hoeffd_t cmp srt' s1 s2 w = hoeffd srt (map conv s1) (map conv s2) w.
  Proof.
    intros S A1 A2. unfold hoeffd_t, hoeffd, zip_windows. destruct (usub w 1); cbn [bind]; [|easy]. rewrite !rwindows_conv. unfold rwindows.
    destruct (w =? 0); cbn [bind bmap]; [easy|]. rewrite <- (rmap_combine (hoeffd_win srt w) (hoeffd_win_t cmp srt' w)); [easy|].
    intros x y Hx Hy. apply window_incl in Hx, Hy. unfold hoeffd_win, hoeffd_win_t. cbn [fst snd].
    rewrite !(rank_typed srt srt') by (exact S || exact (agrees_incl _ _ A1 Hx) || exact (agrees_incl _ _ A2 Hy)). reflexivity.
  Qed.
End Agree.

(** ** The integer types in binary64 *)

Lemma int_agrees (m : libm) l : Forall (fun z => (Z.abs z <= 2 ^ 53)%Z) l -> @agrees f64 (B64 m) Z int_cmp b64_of_Z l.
Proof.
  intros H a b Ha Hb. rewrite Forall_forall in H. pose proof (xval_of_Z a (H a Ha)) as Ea. pose proof (xval_of_Z b (H b Hb)) as Eb.
  cbn [fltb feqb fisnan B64]. rewrite ltb_xval, eqb_xval, isnan_xval, Ea, Eb. cbn [xltb xeqb]. unfold tlt, tne, tnan, int_cmp, Rltb, Req.
  split; [|split; [|reflexivity]].
  - destruct (Rlt_dec (IZR a) (IZR b)) as [L|L], (Z.compare_spec a b) as [E|E|E]; try easy; exfalso; try apply L; try apply lt_IZR in L; try apply IZR_lt; lia.
  - destruct (Req_EM_T (IZR a) (IZR b)) as [L|L], (Z.compare_spec a b) as [E|E|E]; try easy; exfalso; try (apply eq_IZR in L; lia). subst. now apply L.
Qed.

(** Series of integers of at most 2^53 in absolute value, in any integer type. *)
Section Ints.
  Variable m : libm.
  Local Instance M : FOps f64 := B64 m.
  Definition small_ints (l : list Z) : Prop := Forall (fun z => (Z.abs z <= 2 ^ 53)%Z) l.
  Theorem quantile_f64_int data w (q : f64) : small_ints data -> quantile_t int_cmp b64_of_Z data w q = quantile (map b64_of_Z data) w q.
  Proof. intros H. now apply quantile_typed, int_agrees. Qed.
  Theorem median_f64_int data w : small_ints data -> median_t int_cmp b64_of_Z data w = median (map b64_of_Z data) w.
  Proof. intros H. now apply median_typed, int_agrees. Qed.
  Theorem rank_f64_int srt srt' data mode : same_sort int_cmp b64_of_Z srt srt' -> small_ints data ->
    rank_t int_cmp srt' data mode = rank srt (map b64_of_Z data) mode.
  Proof. intros S H. now apply rank_typed, int_agrees. Qed.
  Theorem srcc_f64_int srt srt' s1 s2 w : same_sort int_cmp b64_of_Z srt srt' -> small_ints s1 -> small_ints s2 ->
    srcc_t int_cmp srt' s1 s2 w = srcc srt (map b64_of_Z s1) (map b64_of_Z s2) w.
  Proof. intros S H1 H2. apply srcc_typed; [easy|now apply int_agrees..]. Qed.
  Theorem hoeffd_f64_int srt srt' s1 s2 w : same_sort int_cmp b64_of_Z srt srt' -> small_ints s1 -> small_ints s2 ->
    hoeffd_t int_cmp srt' s1 s2 w = hoeffd srt (map b64_of_Z s1) (map b64_of_Z s2) w.
  Proof. intros S H1 H2. apply hoeffd_typed; [easy|now apply int_agrees..]. Qed.

  (** Beyond 2^53 the same numbers given as [f64] tie: 2^53 and 2^53 + 1 rank first
      and second as [i64], but share the first rank once converted, whichever of
      the two orders the sort leaves the tie in. *)
  Definition neighbours : list Z := [2 ^ 53; 2 ^ 53 + 1]%Z.
  Definition ranks_are (r : result (list f64)) (l : list nat) : bool :=
    match r with Ok o => Nat.eqb (length o) (length l) && forallb (fun '(x, k) => Beqb x (b64_of_Z (Z.of_nat k))) (combine o l) | Panic => false end.
  Theorem rank_int_refuted : Forall (fun z => - 2 ^ 63 <= z < 2 ^ 63)%Z neighbours /\
    (forall srt', srt' neighbours = [0; 1]%nat -> ranks_are (rank_t int_cmp srt' neighbours None) [1; 2]%nat = true) /\
    (forall srt, srt (map b64_of_Z neighbours) = [0; 1]%nat \/ srt (map b64_of_Z neighbours) = [1; 0]%nat ->
      ranks_are (rank srt (map b64_of_Z neighbours) None) [1; 1]%nat = true).
  Proof.
    split; [repeat constructor; lia|]. split.
    - intros srt' S. unfold rank_t, argsort_t. rewrite S. vm_compute. reflexivity.
    - intros srt S. unfold rank, argsort. destruct S as [S|S]; rewrite S; vm_compute; reflexivity.
  Qed.
End Ints.

(** ** Series of [f32] *)
Definition f32 : Type := binary_float 24 128.
(** [f32::partial_cmp]. *)
Definition f32_cmp (a b : f32) : option comparison := Bcompare a b.
(** [x as f64]: every [f32] is an [f64]. *)
Definition f64_of_f32 (x : f32) : f64 :=
  match x with
  | B754_zero s => B754_zero s
  | B754_infinity s => B754_infinity s
  | B754_nan => B754_nan
  | B754_finite s m e _ => binary_normalize 53 1024 eq_refl eq_refl mode_NE (SpecFloat.cond_Zopp s (Zpos m)) e s
  end.
Definition xval32 (x : f32) : xr := match x with B754_nan => NaN | B754_infinity s => Inf s | _ => Fin (B2R x) end.
Lemma f64_of_f32_val x : xval (f64_of_f32 x) = xval32 x.
Proof.
  destruct x as [s|s| |s m e H]; try easy. cbn [f64_of_f32 xval32].
  pose proof (binary_normalize_correct 53 1024 eq_refl eq_refl mode_NE (SpecFloat.cond_Zopp s (Zpos m)) e s) as C. cbv zeta in C.
  set (x := B754_finite s m e H : f32) in *. change (F2R {| Fnum := SpecFloat.cond_Zopp s (Zpos m); Fexp := e |}) with (B2R x) in C.
  assert (G : generic_format radix2 (SpecFloat.fexp 53 1024) (B2R x)).
  { apply generic_inclusion_mag with (fexp1 := SpecFloat.fexp 24 128); [|apply generic_format_B2R].
    intros _. unfold SpecFloat.fexp, SpecFloat.emin. lia. }
  assert (L : (Rabs (B2R x) < bpow radix2 1024)%R).
  { eapply Rlt_le_trans; [apply abs_B2R_lt_emax|]. apply bpow_le. lia. }
  rewrite round_generic in C by (try exact G; apply valid_rnd_round_mode). rewrite Rlt_bool_true in C by exact L. destruct C as (C1 & C2 & _).
  rewrite xval_fin by exact C2. now rewrite C1.
Qed.
Lemma f64_of_f32_lt x y : Bltb (f64_of_f32 x) (f64_of_f32 y) = Bltb x y.
Proof.
  rewrite ltb_xval, !f64_of_f32_val. symmetry. destruct (is_finite x) eqn:Fx, (is_finite y) eqn:Fy.
  - rewrite (Bltb_correct _ _ x y) by easy. replace (xval32 x) with (Fin (B2R x)) by now destruct x. replace (xval32 y) with (Fin (B2R y)) by now destruct y. cbn. apply Rlt_bool_Rltb.
  - destruct y as [s|s| |s m e H]; try easy; destruct x as [t|t| |t m e H]; try easy; try (now destruct s); now destruct t, s.
  - destruct x as [s|s| |s m e H]; try easy; destruct y as [t|t| |t m e H]; try easy; try (now destruct s); now destruct t, s.
  - destruct x as [s|s| |s m e H]; try easy; destruct y as [t|t| |t m' e' H']; try easy; destruct s; try easy; now destruct t.
Qed.
Lemma f64_of_f32_eq x y : Beqb (f64_of_f32 x) (f64_of_f32 y) = Beqb x y.
Proof.
  rewrite eqb_xval, !f64_of_f32_val. symmetry. destruct (is_finite x) eqn:Fx, (is_finite y) eqn:Fy.
  - rewrite (Beqb_correct _ _ x y) by easy. replace (xval32 x) with (Fin (B2R x)) by now destruct x. replace (xval32 y) with (Fin (B2R y)) by now destruct y. cbn.
    unfold Req. destruct (Req_bool_spec (B2R x) (B2R y)), (Req_EM_T (B2R x) (B2R y)); easy.
  - destruct y as [s|s| |s m e H]; try easy; destruct x as [t|t| |t m e H]; try easy; try (now destruct s); now destruct t, s.
  - destruct x as [s|s| |s m e H]; try easy; destruct y as [t|t| |t m e H]; try easy; try (now destruct s); now destruct t, s.
  - destruct x as [s|s| |s m e H]; try easy; destruct y as [t|t| |t m' e' H']; try easy; destruct s; try easy; now destruct t.
Qed.
(** Infinities and NaN included. *)
Lemma f32_agrees (m : libm) l : @agrees f64 (B64 m) f32 f32_cmp f64_of_f32 l.
Proof.
  intros a b _ _. cbn [fltb feqb fisnan B64]. rewrite f64_of_f32_lt, f64_of_f32_eq, isnan_xval, f64_of_f32_val. split; [reflexivity|split].
  - unfold tne, f32_cmp, Beqb, Bcompare, SpecFloat.SFeqb. now destruct (SpecFloat.SFcompare _ _) as [[| |]|].
  - unfold tnan, f32_cmp. destruct a as [s|s| |s k e H]; try (now destruct s); try easy.
Qed.

Section F32.
  Variable m : libm.
  Local Instance M32 : FOps f64 := B64 m.
  Theorem quantile_f32 data w (q : f64) : quantile_t f32_cmp f64_of_f32 data w q = quantile (map f64_of_f32 data) w q.
  Proof. apply quantile_typed, f32_agrees. Qed.
  Theorem median_f32 data w : median_t f32_cmp f64_of_f32 data w = median (map f64_of_f32 data) w.
  Proof. apply median_typed, f32_agrees. Qed.
  Theorem rank_f32 srt srt' data mode : same_sort f32_cmp f64_of_f32 srt srt' ->
    rank_t f32_cmp srt' data mode = rank srt (map f64_of_f32 data) mode.
  Proof. intros S. now apply rank_typed, f32_agrees. Qed.
  Theorem srcc_f32 srt srt' s1 s2 w : same_sort f32_cmp f64_of_f32 srt srt' ->
    srcc_t f32_cmp srt' s1 s2 w = srcc srt (map f64_of_f32 s1) (map f64_of_f32 s2) w.
  Proof. intros S. apply srcc_typed; [easy|apply f32_agrees..]. Qed.
  Theorem hoeffd_f32 srt srt' s1 s2 w : same_sort f32_cmp f64_of_f32 srt srt' ->
    hoeffd_t f32_cmp srt' s1 s2 w = hoeffd srt (map f64_of_f32 s1) (map f64_of_f32 s2) w.
  Proof. intros S. apply hoeffd_typed; [easy|apply f32_agrees..]. Qed.
End F32.

Definition int_quotes : list Z := [103; 101; 107; 107; 99; 101; 110; -4; 0; 12]%Z.
Definition int_quotes' : list Z := [5; 9; 1; 3; 3; 2 ^ 40; 7; 7; 8; -11]%Z.
Lemma int_quotes_small : small_ints int_quotes. Proof. repeat constructor; cbn; lia. Qed.
Lemma int_quotes_small' : small_ints int_quotes'. Proof. repeat constructor; cbn; lia. Qed.
Definition int_sort (m : libm) (l : list Z) : list nat := @stable_argsort f64 (B64 m) (map b64_of_Z l).
Lemma int_sort_same m : @same_sort f64 (B64 m) Z int_cmp b64_of_Z (@stable_argsort f64 (B64 m)) (int_sort m).
Proof. now intros l _. Qed.
Example quantile_f64_int_case m := quantile_f64_int m int_quotes 5 (b64_of_Z 30) int_quotes_small.
Example median_f64_int_case m := median_f64_int m int_quotes 5 int_quotes_small.
Example rank_f64_int_case m := rank_f64_int m _ _ int_quotes (Some RDense) (int_sort_same m) int_quotes_small.
Example srcc_f64_int_case m := srcc_f64_int m _ _ int_quotes int_quotes' 5 (int_sort_same m) int_quotes_small int_quotes_small'.
Example hoeffd_f64_int_case m := hoeffd_f64_int m _ _ int_quotes int_quotes' 6 (int_sort_same m) int_quotes_small int_quotes_small'.
Example quantile_typed_case m := @quantile_typed f64 (B64 m) Z int_cmp b64_of_Z int_quotes 4 (b64_of_Z 75) (int_agrees m _ int_quotes_small).
Example rank_typed_case m := @rank_typed f64 (B64 m) Z int_cmp b64_of_Z _ _ int_quotes (Some RAverage) (int_sort_same m) (int_agrees m _ int_quotes_small).
Definition f32_sort (m : libm) (l : list f32) : list nat := @stable_argsort f64 (B64 m) (map f64_of_f32 l).
Lemma f32_sort_same m : @same_sort f64 (B64 m) f32 f32_cmp f64_of_f32 (@stable_argsort f64 (B64 m)) (f32_sort m).
Proof. now intros l _. Qed.
Example rank_f32_case m data mode := rank_f32 m _ _ data mode (f32_sort_same m).
Example srcc_f32_case m s1 s2 w := srcc_f32 m _ _ s1 s2 w (f32_sort_same m).
Example hoeffd_f32_case m s1 s2 w := hoeffd_f32 m _ _ s1 s2 w (f32_sort_same m).
