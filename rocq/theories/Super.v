(** * Super: the smoothing functions are linear.

    In exact arithmetic, smoothing the sum of two series gives the sum of the smoothed
    series, at every bar and with NaN and infinite values included; both sides panic
    for the same arguments.  (Multiples are the theorems about units in ScaleVals.v.) *)

From Coq Require Import Reals Lra Lia.
From Verif Require Import Base Num XReal BaseFacts RSpec XRFacts SmoothReal SmoothReal2 SmoothVals ShiftRel.
From Verif Require Import Spec Bars MomReal Adaptive ShiftVals Smooth Volatility Trend Momentum Volume.
Local Unset Implicit Arguments.
Local Open Scope nat_scope.

(** The sum of two series, bar by bar. *)
Definition plus (a b : list xr) : list xr := map (fun '(x, y) => fadd x y) (combine a b).
(** The sum of what two calls return; a panic if one of them panics. *)
Definition plus_of (r s : result (list xr)) : result (list xr) := let* a := r in let* b := s in Ok (plus a b).
(** The same for results that carry two or three values per bar. *)
Definition plus2_of (r s : result (list (xr * xr))) : result (list (xr * xr)) :=
  let* a := r in let* b := s in Ok (map (fun '((x, y), (x', y')) => (fadd x x', fadd y y')) (combine a b)).
Definition plus3_of (r s : result (list (xr * xr * xr))) : result (list (xr * xr * xr)) :=
  let* a := r in let* b := s in
  Ok (map (fun '((x, y, z), (x', y', z')) => (fadd x x', fadd y y', fadd z z')) (combine a b)).

(** ** Three runs side by side *)

Inductive F3 {A B C} (T : A -> B -> C -> Prop) : list A -> list B -> list C -> Prop :=
| F3_nil : F3 T [] [] []
| F3_cons a b c la lb lc : T a b c -> F3 T la lb lc -> F3 T (a :: la) (b :: lb) (c :: lc).
Definition rel3 {A B C} (T : A -> B -> C -> Prop) (r : result A) (s : result B) (t : result C) : Prop :=
  match r, s, t with Ok a, Ok b, Ok c => T a b c | Panic, Panic, Panic => True | _, _, _ => False end.
Definition pr3 {A B C A' B' C'} (T : A -> B -> C -> Prop) (U : A' -> B' -> C' -> Prop)
  (p : A * A') (q : B * B') (r : C * C') : Prop := T (fst p) (fst q) (fst r) /\ U (snd p) (snd q) (snd r).

Lemma bind3 {A B C A' B' C'} (T : A -> B -> C -> Prop) (U : A' -> B' -> C' -> Prop) r s t k1 k2 k3 :
  rel3 T r s t -> (forall a b c, T a b c -> rel3 U (k1 a) (k2 b) (k3 c)) ->
  rel3 U (bind r k1) (bind s k2) (bind t k3).
Proof. destruct r, s, t; cbn; try easy. auto. Qed.
Lemma ok3 {A B C} (T : A -> B -> C -> Prop) a b c : T a b c -> rel3 T (Ok a) (Ok b) (Ok c).
Proof. easy. Qed.
Lemma same3 {A A' B' C'} (U : A' -> B' -> C' -> Prop) (r : result A) k1 k2 k3 :
  (forall a, r = Ok a -> rel3 U (k1 a) (k2 a) (k3 a)) -> rel3 U (bind r k1) (bind r k2) (bind r k3).
Proof. destruct r; cbn; auto. Qed.

Section Lists.
  Context {A B C : Type} (T : A -> B -> C -> Prop).
  Lemma f3_len a b c : F3 T a b c -> length b = length a /\ length c = length a.
  Proof. induction 1; cbn; lia. Qed.
  Lemma f3_app a b c a' b' c' : F3 T a b c -> F3 T a' b' c' -> F3 T (a ++ a') (b ++ b') (c ++ c').
  Proof. induction 1; cbn; [easy|]. constructor; auto. Qed.
  Lemma f3_pad k x y z : T x y z -> F3 T (pad k x) (pad k y) (pad k z).
  Proof. intros H. unfold pad. induction k; cbn; constructor; auto. Qed.
  Lemma f3_firstn k a b c : F3 T a b c -> F3 T (firstn k a) (firstn k b) (firstn k c).
  Proof. intros H. revert k. induction H; intros [|k]; cbn; constructor; auto. Qed.
  Lemma f3_skipn k a b c : F3 T a b c -> F3 T (skipn k a) (skipn k b) (skipn k c).
  Proof. intros H. revert k. induction H; intros [|k]; cbn; try constructor; auto. Qed.
  Lemma f3_rev a b c : F3 T a b c -> F3 T (rev a) (rev b) (rev c).
  Proof. induction 1; cbn; [constructor|]. apply f3_app; [easy|]. constructor; [easy|constructor]. Qed.
  Lemma f3_nth k x y z a b c : T x y z -> F3 T a b c -> T (nth k a x) (nth k b y) (nth k c z).
  Proof. intros D H. revert k. induction H; intros [|k]; cbn; auto. Qed.
  Lemma f3_slice_to k a b c : F3 T a b c -> rel3 (F3 T) (slice_to a k) (slice_to b k) (slice_to c k).
  Proof.
    intros H. destruct (f3_len _ _ _ H) as [E1 E2]. unfold slice_to. rewrite E1, E2.
    destruct (_ <=? _); [|easy]. now apply f3_firstn.
  Qed.
  Lemma f3_slice_from k a b c : F3 T a b c -> rel3 (F3 T) (slice_from a k) (slice_from b k) (slice_from c k).
  Proof.
    intros H. destruct (f3_len _ _ _ H) as [E1 E2]. unfold slice_from. rewrite E1, E2.
    destruct (_ <=? _); [|easy]. now apply f3_skipn.
  Qed.
  Lemma f3_idx k a b c : F3 T a b c -> rel3 T (idx a k) (idx b k) (idx c k).
  Proof. intros H. unfold idx. revert k. induction H; intros [|k]; cbn; auto. Qed.
  Lemma f3_windows w a b c : F3 T a b c -> F3 (F3 T) (windows w a) (windows w b) (windows w c).
  Proof.
    intros H. destruct (f3_len _ _ _ H) as [E1 E2]. unfold windows. rewrite E1, E2.
    induction (seq _ _) as [|i l IH]; cbn; constructor; [|easy]. now apply f3_firstn, f3_skipn.
  Qed.
  Lemma f3_rwindows w a b c : F3 T a b c -> rel3 (F3 (F3 T)) (rwindows w a) (rwindows w b) (rwindows w c).
  Proof. intros H. unfold rwindows. destruct (w =? 0); [easy|]. now apply f3_windows. Qed.
End Lists.
Lemma f3_map {A B C A' B' C'} (T : A -> B -> C -> Prop) (U : A' -> B' -> C' -> Prop) f g h a b c :
  (forall x y z, T x y z -> U (f x) (g y) (h z)) -> F3 T a b c -> F3 U (map f a) (map g b) (map h c).
Proof. intros H. induction 1; cbn; constructor; auto. Qed.
Lemma f3_same {A A' B' C'} (U : A' -> B' -> C' -> Prop) (f : A -> A') (g : A -> B') (h : A -> C') l :
  (forall i, In i l -> U (f i) (g i) (h i)) -> F3 U (map f l) (map g l) (map h l).
Proof. induction l; cbn; intros H; constructor; auto. Qed.
Lemma f3_combine {A B C A' B' C'} (T : A -> B -> C -> Prop) (U : A' -> B' -> C' -> Prop) a b c a' b' c' :
  F3 T a b c -> F3 U a' b' c' -> F3 (pr3 T U) (combine a a') (combine b b') (combine c c').
Proof. intros H. revert a' b' c'. induction H; intros a' b' c' [|]; cbn; constructor; [split|]; auto. Qed.
(** One of the two lists is common to the three runs. *)
Lemma f3_combine_r {A B C D} (T : A -> B -> C -> Prop) (P : D -> Prop) a b c (w : list D) :
  F3 T a b c -> Forall P w ->
  F3 (pr3 T (fun x y z => x = y /\ x = z /\ P x)) (combine a w) (combine b w) (combine c w).
Proof.
  intros H. revert w. induction H; intros [|x w] Hw; cbn; constructor; inversion Hw; subst.
  - split; cbn; auto.
  - auto.
Qed.
Lemma f3_combine_l {A B C D} (T : A -> B -> C -> Prop) (P : D -> Prop) a b c (w : list D) :
  F3 T a b c -> Forall P w ->
  F3 (pr3 (fun x y z => x = y /\ x = z /\ P x) T) (combine w a) (combine w b) (combine w c).
Proof.
  intros H. revert w. induction H; intros [|x w] Hw; cbn; constructor; inversion Hw; subst.
  - split; cbn; auto.
  - auto.
Qed.
Lemma f3_fold {A B C S S' S''} (T : A -> B -> C -> Prop) (U : S -> S' -> S'' -> Prop) f g h a b c s s' s'' :
  (forall s s' s'' x y z, U s s' s'' -> T x y z -> U (f s x) (g s' y) (h s'' z)) ->
  F3 T a b c -> U s s' s'' -> U (fold_left f a s) (fold_left g b s') (fold_left h c s'').
Proof. intros H G. revert s s' s''. induction G; cbn; intros; auto. Qed.
Lemma f3_scan {A B C S S' S'' O O' O''} (T : A -> B -> C -> Prop) (U : S -> S' -> S'' -> Prop) (V : O -> O' -> O'' -> Prop)
  f g h a b c s s' s'' :
  (forall s s' s'' x y z, U s s' s'' -> T x y z -> pr3 U V (f s x) (g s' y) (h s'' z)) ->
  F3 T a b c -> U s s' s'' -> F3 V (scan f s a) (scan g s' b) (scan h s'' c).
Proof.
  intros H G. revert s s' s''. induction G; cbn; intros s s' s'' HU; [constructor|].
  pose proof (H s s' s'' a b c HU H0) as [H1 H2].
  destruct (f s a), (g s' b), (h s'' c). cbn in *. constructor; auto.
Qed.

(** ** Sums of numbers *)

Definition sum3 (x y z : xr) : Prop := z = fadd x y.
(** What a series may be multiplied with, and divided by. *)
Definition factor (c : xr) : Prop := forall s, c <> Inf s.
Definition divisor (c : xr) : Prop := c <> Fin 0.

Lemma s3_add a b c a' b' c' : sum3 a b c -> sum3 a' b' c' -> sum3 (fadd a a') (fadd b b') (fadd c c').
Proof.
  unfold sum3. intros -> ->. destruct a as [|[]|], b as [|[]|], a' as [|[]|], b' as [|[]|]; cbn; try reflexivity; f_equal; ring.
Qed.
Lemma s3_sub a b c a' b' c' : sum3 a b c -> sum3 a' b' c' -> sum3 (fsub a a') (fsub b b') (fsub c c').
Proof.
  unfold sum3. intros -> ->. destruct a as [|[]|], b as [|[]|], a' as [|[]|], b' as [|[]|]; cbn; try reflexivity; f_equal; ring.
Qed.
Lemma s3_mul_r a b c k : factor k -> sum3 a b c -> sum3 (fmul a k) (fmul b k) (fmul c k).
Proof.
  unfold sum3. intros Hk ->. destruct k as [r|s|]; [|now destruct (Hk s)|].
  - destruct a as [|[]|], b as [|[]|]; cbn; try reflexivity; try (destruct (Req r 0); cbn; try destruct (Rltb r 0); reflexivity). f_equal. ring.
  - destruct a as [|[]|], b as [|[]|]; reflexivity.
Qed.
Lemma x_mul_comm (x y : xr) : fmul x y = fmul y x.
Proof. destruct x as [|[]|], y as [|[]|]; cbn; try reflexivity. f_equal. ring. Qed.
Lemma s3_mul_l a b c k : factor k -> sum3 a b c -> sum3 (fmul k a) (fmul k b) (fmul k c).
Proof. intros. rewrite !(x_mul_comm k). now apply s3_mul_r. Qed.
Lemma s3_div a b c k : divisor k -> sum3 a b c -> sum3 (fdiv a k) (fdiv b k) (fdiv c k).
Proof.
  unfold sum3. intros Hk ->. destruct k as [r|[]|].
  - cbn. assert (E : Req r 0 = false).
    { unfold Req. destruct (Req_EM_T r 0); [subst; now destruct Hk|easy]. }
    destruct a as [|[]|], b as [|[]|]; cbn; rewrite ?E; cbn; rewrite ?E; try reflexivity; try (destruct (Rltb r 0); reflexivity). f_equal. field.
    intros ->. now destruct Hk.
  - destruct a as [|[]|], b as [|[]|]; cbn; try reflexivity. f_equal. ring.
  - destruct a as [|[]|], b as [|[]|]; cbn; try reflexivity. f_equal. ring.
  - destruct a as [|[]|], b as [|[]|]; cbn; reflexivity.
Qed.
Lemma s3_nan : sum3 NaN NaN NaN. Proof. reflexivity. Qed.
Lemma s3_zero : sum3 (Fin 0) (Fin 0) (Fin 0). Proof. unfold sum3. cbn. f_equal. ring. Qed.
Lemma plus_sum3 a b : length a = length b -> F3 sum3 a b (plus a b).
Proof.
  revert b. induction a as [|x a IH]; intros [|y b] L; cbn in *; try lia; constructor; [easy|]. apply IH. lia.
Qed.
Lemma sum3_plus a b c : F3 sum3 a b c -> c = plus a b.
Proof. induction 1 as [|x y z a b c H _ IH]; [easy|]. cbn. now rewrite H, IH. Qed.
Lemma to_plus r s t : rel3 (F3 sum3) r s t -> t = plus_of r s.
Proof. destruct r, s, t; cbn; try easy. intros H. now rewrite (sum3_plus _ _ _ H). Qed.

Lemma f_fin r : factor (Fin r). Proof. easy. Qed.
Lemma f_lit n d : factor (flit n d). Proof. easy. Qed.
Lemma f_nat n : factor (fofnat n). Proof. easy. Qed.
Lemma f_N n : factor (fofN n). Proof. easy. Qed.
Lemma f_add a b : factor a -> factor b -> factor (fadd a b).
Proof. intros Ha Hb s. destruct a as [|t|], b as [|u|]; cbn; try easy; (now destruct (Ha t)) || now destruct (Hb u). Qed.
Lemma f_sub a b : factor a -> factor b -> factor (fsub a b).
Proof. intros Ha Hb s. destruct a as [|t|], b as [|u|]; cbn; try easy; (now destruct (Ha t)) || now destruct (Hb u). Qed.
Lemma f_mul a b : factor a -> factor b -> factor (fmul a b).
Proof. intros Ha Hb s. destruct a as [|t|], b as [|u|]; cbn; try easy; (now destruct (Ha t)) || now destruct (Hb u). Qed.
Lemma f_neg a : factor a -> factor (fneg a).
Proof. intros Ha s. destruct a as [|t|]; cbn; try easy. now destruct (Ha t). Qed.
Lemma f_exp a : factor a -> factor (fexp a).
Proof. intros Ha s. destruct a as [|t|]; cbn; try easy. now destruct (Ha t). Qed.
Lemma f_cos a : factor (fcos a).
Proof. intros s. destruct a as [|t|]; cbn; easy. Qed.
Lemma f_div a b : factor a -> divisor b -> factor (fdiv a b).
Proof.
  intros Ha Hb s. destruct a as [x|t|], b as [y|u|]; cbn; try easy; try (now destruct (Ha t)).
  unfold Req. destruct (Req_EM_T y 0); [subst; now destruct Hb|easy].
Qed.
Lemma f_clamp x : factor (fclamp_val x (flit 0 1) (flit 1 1)).
Proof. unfold fclamp_val. destruct x as [r|[]|]; cbn; intros s; repeat destruct (Rltb _ _); easy. Qed.
Lemma f_pow2 a : factor a -> factor (powi2 a). Proof. intros. now apply f_mul. Qed.
Lemma f_pow3 a : factor a -> factor (powi3 a). Proof. intros. unfold powi3. repeat apply f_mul; easy. Qed.
Lemma d_nat n : n <> 0 -> divisor (fofnat n).
Proof. intros H E. rewrite x_nat in E. injection E as E. now apply (not_0_INR n H). Qed.
Lemma d_lit n : n <> 0%Z -> divisor (flit n 1).
Proof. intros H E. rewrite x_lit in E. injection E as E. now apply (eq_IZR_R0 n) in E. Qed.
#[local] Hint Resolve f_fin f_lit f_nat f_N f_add f_sub f_mul f_neg f_exp f_cos f_div f_clamp f_pow2 f_pow3 s3_nan s3_zero : s3.
#[local] Hint Extern 1 (divisor (fofnat _)) => apply d_nat; lia : s3.
#[local] Hint Extern 1 (divisor (flit _ 1)) => apply d_lit; lia : s3.

Ltac add3 := first
  [ assumption
  | apply s3_nan | apply s3_zero
  | apply s3_add; add3 | apply s3_sub; add3
  | apply s3_mul_l; [solve [auto 12 with s3]|add3]
  | apply s3_mul_r; [solve [auto 12 with s3]|add3]
  | apply s3_div; [solve [auto 12 with s3]|add3] ].

Lemma s3_fsum a b c : F3 sum3 a b c -> sum3 (fsum a) (fsum b) (fsum c).
Proof.
  intros H. unfold fsum. refine (f3_fold sum3 sum3 fadd fadd fadd _ _ _ _ _ _ _ H s3_zero).
  intros. now apply s3_add.
Qed.
Lemma s3_dot ws a b c : Forall factor ws -> F3 sum3 a b c -> sum3 (dot ws a) (dot ws b) (dot ws c).
Proof.
  intros Hw H. unfold dot. apply s3_fsum. eapply f3_map; [|apply (f3_combine_r sum3 factor); eassumption].
  intros [x v] [y v'] [z v''] [H1 (E1 & E2 & P)]. cbn in *. subst. now apply s3_mul_r.
Qed.

Notation S3 := (F3 sum3).
Notation R3 := (rel3 (F3 sum3)).

Ltac pad3 := apply f3_app; [apply f3_pad; exact s3_nan|].

Lemma sma_3 a b c w : S3 a b c -> R3 (sma a w) (sma b w) (sma c w).
Proof.
  intros H. unfold sma. apply same3. intros k Hk. assert (w <> 0) by (intros ->; easy).
  eapply bind3; [eapply f3_rwindows; eassumption|]. intros x y z W. apply ok3. pad3.
  eapply f3_map; [|exact W]. intros u v t U. unfold sma_win. apply s3_div; [auto with s3|]. now apply s3_fsum.
Qed.
Lemma ewma_3 a b c w : S3 a b c -> R3 (ewma a w) (ewma b w) (ewma c w).
Proof.
  intros H. unfold ewma. eapply bind3; [eapply f3_slice_to; eassumption|]. intros x y z X.
  apply same3. intros k Hk. assert (w <> 0) by (intros ->; easy).
  eapply bind3; [eapply f3_slice_from; eassumption|]. intros x' y' z' X'. apply ok3. pad3.
  assert (I : sum3 (fdiv (fsum x) (fofnat w)) (fdiv (fsum y) (fofnat w)) (fdiv (fsum z) (fofnat w))).
  { apply s3_div; [auto with s3|]. now apply s3_fsum. }
  constructor; [exact I|]. eapply (f3_scan sum3 sum3 sum3); [|exact X'|exact I].
  intros s s' s'' u v t Hs Hu. unfold ewma_step. split; cbn [fst snd]; add3.
Qed.

Ltac b3 L := eapply bind3; [eapply L; eassumption|]; intros ? ? ? ?.
Ltac k3 := apply same3; intros ? ?.

Lemma dema_3 a b c w : S3 a b c -> R3 (dema a w) (dema b w) (dema c w).
Proof.
  intros H. unfold dema. b3 ewma_3. k3. b3 (f3_slice_from sum3). b3 ewma_3. apply ok3.
  eapply f3_map; [|eapply f3_combine; [eassumption|pad3; eassumption]].
  intros [] [] [] [X Y]. cbn in X, Y. add3.
Qed.
Lemma tema_3 a b c w : S3 a b c -> R3 (tema a w) (tema b w) (tema c w).
Proof.
  intros H. unfold tema. b3 ewma_3. k3. b3 (f3_slice_from sum3). b3 ewma_3.
  b3 (f3_slice_from sum3). b3 ewma_3. apply ok3.
  eapply f3_map; [|eapply f3_combine; [eapply f3_combine; [eassumption|pad3; eassumption]|pad3; eassumption]].
  intros [[] ?] [[] ?] [[] ?] [[X Y] Z]. cbn in X, Y, Z. add3.
Qed.
Lemma wsum_3 ws a b c w : w <> 0 -> Forall factor ws -> S3 a b c ->
  R3 (let* k := usub w 1 in let* v := rwindows w a in Ok (pad k fnan ++ map (dot ws) v))
     (let* k := usub w 1 in let* v := rwindows w b in Ok (pad k fnan ++ map (dot ws) v))
     (let* k := usub w 1 in let* v := rwindows w c in Ok (pad k fnan ++ map (dot ws) v)).
Proof.
  intros Hw Hf H. k3. b3 (f3_rwindows sum3). apply ok3. pad3.
  eapply f3_map; [|eassumption]. intros u v t U. now apply s3_dot.
Qed.
Lemma wma_3 a b c w : S3 a b c -> R3 (wma a w) (wma b w) (wma c w).
Proof.
  intros H. unfold wma. apply same3. intros ws E. apply (wma_weights_val (F := xr)) in E.
  destruct (Nat.eq_dec w 0) as [->|W]; [easy|]. apply wsum_3; [easy| |easy].
  rewrite E, wma_den. apply Forall_forall. intros x Hx. apply in_map_iff in Hx as (k & <- & _).
  apply f_div; [auto with s3|]. intros [= X]. pose proof (lt_0_INR w ltac:(lia)). nra.
Qed.
Lemma pwma_3 a b c w : S3 a b c -> R3 (pwma a w) (pwma b w) (pwma c w).
Proof.
  intros H. unfold pwma. destruct (le_lt_dec 64 w); [now rewrite Pascal.pascal_row_big|].
  destruct (Nat.eq_dec w 0) as [->|W]; [easy|]. rewrite Pascal.pascal_row_small by lia. cbn [bind].
  apply wsum_3; [easy| |easy]. apply Forall_forall. intros x Hx. apply in_map_iff in Hx as (k & <- & _).
  apply f_div; [auto with s3|]. intros [= X]. apply (eq_IZR_R0 _) in X.
  pose proof (N.pow_nonzero 2 (N.of_nat (w - 1)) ltac:(lia)). lia.
Qed.
Lemma fwma_3 a b c w : S3 a b c -> R3 (fwma a w) (fwma b w) (fwma c w).
Proof.
  intros H. unfold fwma. unfold usub at 1 3 5. destruct (Nat.leb_spec 2 w); cbn [bind]; [|easy].
  apply wsum_3; [lia| |easy]. rewrite x_fib_weights by easy. apply Forall_forall. intros x Hx.
  apply in_map_iff in Hx as (k & <- & _). easy.
Qed.
Lemma wilder_3 a b c w : S3 a b c -> R3 (wilder a w) (wilder b w) (wilder c w).
Proof.
  intros H. unfold wilder. destruct (Nat.eqb_spec w 1); [exact H|]. apply same3. intros k Hk.
  unfold usub in Hk. destruct (Nat.leb_spec 1 w); [|easy]. injection Hk as <-.
  b3 (f3_slice_to sum3). b3 (f3_slice_from sum3). apply ok3. pad3.
  eapply (f3_scan sum3 sum3 sum3); [|eassumption|].
  - intros s s' s'' u v t Hs Hu. unfold wilder_step. split; cbn [fst snd]; add3.
  - apply s3_div; [auto with s3|]. now apply s3_fsum.
Qed.
Lemma hull_3 a b c w : S3 a b c -> R3 (hull a w) (hull b w) (hull c w).
Proof.
  intros H. unfold hull. b3 wma_3. b3 wma_3. apply wma_3.
  eapply f3_map; [|eapply f3_combine; eassumption]. intros [] [] [] [X Y]. cbn in X, Y. add3.
Qed.
Lemma trima_3 a b c w : S3 a b c -> R3 (trima a w) (trima b w) (trima c w).
Proof. intros H. unfold trima. b3 sma_3. now apply sma_3. Qed.
Lemma zlma_3 a b c w : S3 a b c -> R3 (zlma a w) (zlma b w) (zlma c w).
Proof.
  intros H. unfold zlma. k3. b3 (f3_slice_from sum3). eapply bind3; [eapply ewma_3|].
  - eapply f3_map; [|eapply f3_combine; eassumption]. intros [] [] [] [X Y]. cbn in X, Y. add3.
  - intros. apply ok3. pad3. easy.
Qed.
Lemma f3_windows_len w a b c : S3 a b c ->
  F3 (fun x y z => S3 x y z /\ (w <> 0 -> length x = w)) (windows w a) (windows w b) (windows w c).
Proof.
  intros H. destruct (f3_len _ _ _ _ H) as [E1 E2]. unfold windows. rewrite E1, E2.
  apply f3_same. intros i Hi. apply in_seq in Hi. split; [now apply f3_firstn, f3_skipn|].
  intros W. rewrite firstn_length, skipn_length. lia.
Qed.
Lemma lrf_win_3 n a b c : 0 < n -> length a = n -> S3 a b c ->
  let sx := (INR n * (INR n + 1) / 2)%R in
  let sxx := (INR n * (INR n + 1) * (2 * INR n + 1) / 6)%R in
  let den := (INR n * sxx - sx * sx)%R in
  let is := map fofnat (seq 1 n) in
  sum3 (lrf_win (Fin sx) (Fin sxx) (Fin den) n is a) (lrf_win (Fin sx) (Fin sxx) (Fin den) n is b) (lrf_win (Fin sx) (Fin sxx) (Fin den) n is c).
Proof.
  intros Hn L H sx sxx den is.
  assert (E : is = map Fin (map INR (seq 1 n))) by (unfold is; rewrite map_map; apply map_ext; intros; now rewrite x_nat).
  destruct (Nat.eq_dec n 1) as [->|N1].
  { assert (D : den = 0%R) by (unfold den, sxx, sx; cbn [INR]; field).
    assert (X : forall x, lrf_win (Fin sx) (Fin sxx) (Fin den) 1 is [x] = NaN).
    { intros z. unfold lrf_win. rewrite E, D. cbn [seq map combine fold_left].
      replace sx with 1%R by (unfold sx; cbn [INR]; field). rewrite x_lit, x_nat. cbn [INR].
      assert (Z : fdiv (fsub (fmul (Fin 1) (fadd (Fin 0) (fmul (Fin 1) z))) (fmul (Fin 1) (fadd (Fin 0) z))) (Fin 0) = NaN).
      { assert (T1 : forall r, Req (1 * (0 + 1 * r) - 1 * (0 + r)) 0 = true) by (intros; apply Req_true; ring).
        assert (T2 : Req 1 0 = false) by (apply Req_false; lra). assert (T3 : Rltb 1 0 = false) by (apply Rltb_false; lra).
        destruct z as [r|b0|]; [|destruct b0|easy].
        - do 3 rewrite ?x_mul, ?x_add. rewrite x_sub. cbn. rewrite T1. now rewrite (proj2 (Req_true 0 0) eq_refl).
        - do 4 (cbn; rewrite ?T2, ?T3). easy.
        - do 4 (cbn; rewrite ?T2, ?T3). easy. }
      rewrite Z. now rewrite x_mul_nan_l, x_add_nan_l. }
    destruct H as [|x y z la lb lc S H]; cbn in L; [lia|]. destruct H; cbn in L; [|lia].
    rewrite !X. exact s3_nan. }
  pose proof (lt_0_INR n Hn) as P. assert (P2 : (2 <= INR n)%R) by (change 2%R with (INR 2); apply le_INR; lia).
  assert (D : den = (INR n * INR n * ((INR n + 1) * (INR n - 1)) / 12)%R) by (unfold den, sxx, sx; field).
  assert (D0 : (0 < den)%R).
  { rewrite D. apply Rdiv_lt_0_compat; [|lra]. apply Rmult_lt_0_compat; apply Rmult_lt_0_compat; lra. }
  assert (Dd : divisor (Fin den)) by (intros [= X]; lra).
  unfold lrf_win.
  assert (F : pr3 sum3 sum3
    (fold_left (fun '(ys, xys) '(count, val) => (fadd ys val, fadd xys (fmul count val))) (combine is a) (flit 0 1, flit 0 1))
    (fold_left (fun '(ys, xys) '(count, val) => (fadd ys val, fadd xys (fmul count val))) (combine is b) (flit 0 1, flit 0 1))
    (fold_left (fun '(ys, xys) '(count, val) => (fadd ys val, fadd xys (fmul count val))) (combine is c) (flit 0 1, flit 0 1))).
  { eapply f3_fold; [|apply (f3_combine_l sum3 factor); [exact H|]|].
    - intros [u1 u2] [v1 v2] [w1 w2] [k x] [k' y] [k'' z] [U V] [(E1 & E2 & Pk) T]. cbn in *. subst. split; cbn [fst snd]; add3.
    - apply Forall_forall. intros x Hx. apply in_map_iff in Hx as (k & <- & _). easy.
    - rewrite x_lit. split; exact s3_zero. }
  destruct (fold_left _ (combine is a) _), (fold_left _ (combine is b) _), (fold_left _ (combine is c) _).
  destruct F as [F1 F2]. cbn [fst snd] in F1, F2. add3.
Qed.
Lemma lrf_3 a b c w : S3 a b c -> R3 (lrf a w) (lrf b w) (lrf c w).
Proof.
  intros H. unfold lrf. apply same3. intros p Ep. apply same3. intros k Hk.
  unfold usub in Hk. destruct (Nat.leb_spec 1 w); [|easy]. injection Hk as <-.
  unfold umul in Ep. destruct (_ <? _)%N; [|easy]. injection Ep as <-.
  assert (Ex : fdiv (fofN (N.of_nat w * N.of_nat (w + 1))) (@flit xr XR 2 1) = Fin (INR w * (INR w + 1) / 2)).
  { rewrite x_lit. unfold fofN at 1. cbn [XR]. unfold xofN. rewrite x_div by lra. f_equal.
    rewrite N2Z.inj_mul, !nat_N_Z, mult_IZR, <- !INR_IZR_INZ, plus_INR. cbn [INR]. lra. }
  assert (Exx : fdiv (fmul (Fin (INR w * (INR w + 1) / 2)) (fofnat (2 * w + 1))) (@flit xr XR 3 1) = Fin (INR w * (INR w + 1) * (2 * INR w + 1) / 6)).
  { rewrite x_lit, x_nat, x_mul, x_div by lra. f_equal. rewrite plus_INR, mult_INR. cbn [INR]. lra. }
  rewrite Ex, Exx, x_nat, !x_mul, x_sub.
  unfold rwindows. destruct (Nat.eqb_spec w 0); [lia|]. cbn [bind]. apply ok3. pad3.
  eapply f3_map; [|apply f3_windows_len; exact H]. intros u v t [U Lu]. apply lrf_win_3; auto.
Qed.
Lemma t3_3 a b c w f : S3 a b c -> R3 (t3 a w f) (t3 b w f) (t3 c w f).
Proof.
  intros H. unfold t3. b3 ewma_3. k3. do 5 (b3 (f3_slice_from sum3); b3 ewma_3). apply ok3. pad3.
  set (v := fclamp_val _ _ _). assert (factor v) by apply f_clamp. clearbody v.
  eapply f3_map; [|eapply f3_combine; [eapply f3_combine; [eapply f3_combine; [eassumption|pad3; eassumption]|pad3; eassumption]|pad3; eassumption]].
  intros [[[] ?] ?] [[[] ?] ?] [[[] ?] ?] [[[X Y] Z] W]. cbn in X, Y, Z, W. add3.
Qed.
Lemma hwma_3 a b c x y z : S3 a b c -> R3 (hwma a x y z) (hwma b x y z) (hwma c x y z).
Proof.
  intros H. unfold hwma. set (al := fclamp_val (unwrap_or x _) _ _). set (be := fclamp_val (unwrap_or y _) _ _).
  set (ga := fclamp_val (unwrap_or z _) _ _).
  assert (factor al /\ factor be /\ factor ga) as (? & ? & ?) by (repeat split; apply f_clamp). clearbody al be ga.
  b3 (f3_idx sum3). apply ok3. eapply (f3_scan sum3 (pr3 (pr3 sum3 sum3) sum3) sum3); [|exact H|].
  - intros [[] ?] [[] ?] [[] ?] u v t [[S1 S2] S3'] U. cbn in S1, S2, S3'. unfold hwma_step.
    repeat split; cbn [fst snd]; add3.
  - repeat split; cbn [fst snd]; [easy|rewrite x_lit; exact s3_zero..].
Qed.
Lemma ssf_3 a b c w t : 0 < w -> S3 a b c -> R3 (ssf a w t) (ssf b w t) (ssf c w t).
Proof.
  intros W H. unfold ssf.
  assert (Fp : factor (fpi : xr)) by easy.
  assert (Fs : forall n, (0 <= n)%Z -> factor (fsqrt (flit n 1))).
  { intros n Hn. rewrite x_lit, x_sqrt by (apply IZR_le in Hn; exact Hn). easy. }
  destruct (unwrap_or t false).
  - set (x0 := fdiv _ _). assert (Fx : factor x0) by (unfold x0; auto with s3). clearbody x0.
    b3 (f3_slice_from sum3). do 3 b3 (f3_idx sum3). apply ok3. pad3.
    eapply (f3_scan sum3 (pr3 (pr3 sum3 sum3) sum3) sum3); [|eassumption|repeat split; assumption].
    set (y := fexp _). assert (factor y) by (unfold y; auto with s3). clearbody y.
    set (y2 := fmul y y). assert (factor y2) by (unfold y2; auto with s3). clearbody y2.
    set (z := fmul _ (fcos _)). assert (factor z) by (unfold z; auto with s3). clearbody z.
    intros [[] ?] [[] ?] [[] ?] u v r [[S1 S2] S3'] U. cbn in S1, S2, S3'. unfold ssf3_step.
    repeat split; cbn [fst snd]; add3.
  - set (x0 := fdiv _ _). assert (Fx : factor x0) by (unfold x0; apply f_div; [apply f_mul; [easy|apply Fs; lia]|auto with s3]). clearbody x0.
    b3 (f3_slice_from sum3). do 2 b3 (f3_idx sum3). apply ok3. pad3.
    eapply (f3_scan sum3 (pr3 sum3 sum3) sum3); [|eassumption|repeat split; assumption].
    set (y := fexp _). assert (factor y) by (unfold y; auto with s3). clearbody y.
    intros [] [] [] u v r [S1 S2] U. cbn in S1, S2. unfold ssf2_step.
    repeat split; cbn [fst snd]; add3.
Qed.

(** ** Means with positive weights *)

Lemma wmean_3 rs a b c : (forall r, In r rs -> (0 < r)%R) -> rs <> [] -> a <> [] -> S3 a b c ->
  sum3 (weighted_mean (map Fin rs) a) (weighted_mean (map Fin rs) b) (weighted_mean (map Fin rs) c).
Proof.
  intros Hr Nr Na H. unfold weighted_mean.
  set (f := (fun '(s, sw) '(w, v) => (fadd s (fmul w v), fadd sw w)) : xr * xr -> xr * xr -> xr * xr).
  set (P := fun x y z : xr => x = y /\ x = z /\ exists r, x = Fin r /\ (0 < r)%R).
  assert (F : pr3 sum3 P (fold_left f (combine (map Fin rs) a) (flit 0 1, flit 0 1))
    (fold_left f (combine (map Fin rs) b) (flit 0 1, flit 0 1)) (fold_left f (combine (map Fin rs) c) (flit 0 1, flit 0 1))).
  { destruct rs as [|r rs]; [easy|]. destruct H as [|x y z a b c S H]; [easy|]. cbn [map combine fold_left].
    eapply f3_fold with (T := pr3 (fun x y z => x = y /\ x = z /\ exists r, x = Fin r /\ (0 < r)%R) sum3).
    - intros [u1 u2] [v1 v2] [w1 w2] [k p] [k' q] [k'' t] [U (E1 & E2 & r1 & E3 & P1)] [(G1 & G2 & r2 & G3 & P2) T]. cbn in *. subst.
      split; cbn [fst snd]; [apply s3_add; [easy|apply s3_mul_l; easy]|]. split; [easy|]. split; [easy|].
      exists (r1 + r2)%R. split; [easy|lra].
    - eapply (f3_combine_l sum3 (fun x => exists r, x = Fin r /\ (0 < r)%R)); [exact H|].
      apply Forall_forall. intros u Hu. apply in_map_iff in Hu as (v & <- & Hv). exists v. split; [easy|]. apply Hr. now right.
    - unfold f. rewrite x_lit. split; cbn [fst snd].
      + apply s3_add; [exact s3_zero|]. apply s3_mul_l; easy.
      + split; [easy|]. split; [easy|]. exists (0 + r)%R. split; [easy|]. specialize (Hr r (or_introl eq_refl)). lra. }
  destruct (fold_left f (combine _ a) _) as [sa wa], (fold_left f (combine _ b) _) as [sb wb], (fold_left f (combine _ c) _) as [sc wc].
  destruct F as [F1 (E1 & E2 & r & E3 & Pr)]. cbn [fst snd] in *. subst. apply s3_div; [|easy]. intros [= X]. lra.
Qed.
Lemma exp_in {A} (g : A -> R) l r : In r (map (fun k => exp (g k)) l) -> (0 < r)%R.
Proof. intros H. apply in_map_iff in H as (k & <- & _). apply exp_pos. Qed.
Lemma kernel_3 a b c s : s <> 0%R -> S3 a b c -> R3 (kernel a (Fin s)) (kernel b (Fin s)) (kernel c (Fin s)).
Proof.
  intros Hs H. unfold kernel.
  assert (K : kernel_weights (Fin s) = map Fin (map (fun k => exp (- (INR k ^ 2 / (2 * s ^ 2)))) (seq 0 256))).
  { unfold kernel_weights. rewrite map_map. apply map_ext. intros k.
    assert (2 * s * s <> 0)%R by (apply Rmult_integral_contrapositive; split; lra).
    rewrite !x_lit, x_mul, x_mul, x_div by easy. rewrite x_neg, x_nat, x_mul, x_exp. do 2 f_equal.
    rewrite mult_INR. field. easy. }
  rewrite K. apply ok3. destruct (f3_len _ _ _ _ H) as [E1 E2]. rewrite E1, E2.
  apply f3_same. intros i Hi. apply in_seq in Hi. apply wmean_3.
  - intros r Hr. now apply exp_in in Hr.
  - intros E. apply (f_equal (@length R)) in E. rewrite map_length, seq_length in E. discriminate.
  - intros E. apply (f_equal (@length xr)) in E. rewrite firstn_length, rev_length, firstn_length in E. cbn [length] in E. lia.
  - now apply f3_firstn, f3_rev, f3_firstn.
Qed.
Lemma alma_3 a b c w s mu : s <> 0%R -> S3 a b c ->
  R3 (alma a w (Fin s) (option_map Fin mu)) (alma b w (Fin s) (option_map Fin mu)) (alma c w (Fin s) (option_map Fin mu)).
Proof.
  intros Hs H. unfold alma. apply same3. intros k Hk. unfold usub in Hk. destruct (Nat.leb_spec 1 w); [|easy]. injection Hk as <-.
  apply ok3. pad3.
  assert (Ec : exists c, fmul (unwrap_or (option_map Fin mu) (flit 85 100)) (fofnat (w - 1)) = Fin c).
  { rewrite x_nat. destruct mu; cbn [option_map unwrap_or]; eexists; [apply x_mul|]. rewrite x_frac, x_mul. reflexivity. }
  destruct Ec as [m ->].
  assert (K : alma_weights w (Fin s) (Fin m) = map Fin (map (fun k => exp (- ((INR k - m) ^ 2 / (2 * (INR w / s) ^ 2)))) (seq 0 w))).
  { unfold alma_weights. rewrite map_map. apply map_ext. intros k. assert (Hn : INR w <> 0%R) by (apply not_0_INR; lia).
    rewrite !x_nat, x_sub, x_div, !x_pow2, !x_lit, !x_mul by easy.
    assert (P : (0 < 2 * (INR w / s) ^ 2)%R).
    { apply Rmult_lt_0_compat; [lra|]. apply pow2_pos. unfold Rdiv.
      apply Rmult_integral_contrapositive. split; [easy|]. now apply Rinv_neq_0_compat. }
    rewrite x_div, x_exp by lra. do 2 f_equal. field. split; [easy|]. easy. }
  destruct (f3_len _ _ _ _ H) as [E1 E2]. rewrite K, E1, E2. apply f3_same. intros i _. apply wmean_3.
  - intros r Hr. now apply exp_in in Hr.
  - intros E. apply (f_equal (@length R)) in E. rewrite map_length, seq_length in E. cbn in E. lia.
  - intros E. apply (f_equal (@length xr)) in E. rewrite map_length, seq_length in E. cbn in E. lia.
  - apply f3_same. intros j _. unfold at_. apply f3_nth; [exact s3_nan|easy].
Qed.

(** ** Oscillators and lines built from averages *)

(** The modes of [ma] that are linear; [vma] and [vidya] choose their weights by the data. *)
Definition linear_mode (m : MaMode) : bool := match m with Variable_ | Vidya => false | _ => true end.
Lemma ma_3 a b c w m : linear_mode m = true -> S3 a b c -> R3 (ma a w m) (ma b w m) (ma c w m).
Proof.
  intros L H. destruct m; cbn [ma]; try easy.
  - now apply sma_3. - now apply ewma_3. - now apply dema_3. - now apply tema_3. - now apply wma_3. - now apply hull_3.
  - now apply lrf_3. - now apply pwma_3. - now apply trima_3. - now apply wilder_3. - now apply zlma_3.
Qed.
Lemma diff_3 a b c a' b' c' : S3 a b c -> S3 a' b' c' ->
  S3 (map (fun '(x, y) => fsub x y) (combine a a')) (map (fun '(x, y) => fsub x y) (combine b b')) (map (fun '(x, y) => fsub x y) (combine c c')).
Proof.
  intros. eapply f3_map; [|eapply f3_combine; eassumption]. intros [] [] [] [X Y]. cbn in X, Y. add3.
Qed.
Lemma macd_3 a b c s l : S3 a b c -> R3 (macd a s l) (macd b s l) (macd c s l).
Proof. intros H. unfold macd. b3 ewma_3. b3 ewma_3. apply ok3. now apply diff_3. Qed.
Lemma dpo_3 a b c w m : linear_mode (unwrap_or m SMA) = true -> S3 a b c -> R3 (dpo a w m) (dpo b w m) (dpo c w m).
Proof.
  intros L H. unfold dpo. eapply bind3; [eapply ma_3; eassumption|]. intros. k3. k3. k3. b3 (f3_slice_from sum3). apply ok3.
  pad3. apply diff_3; [easy|]. now apply f3_skipn.
Qed.
Lemma qstick_3 a b c a' b' c' w : S3 a b c -> S3 a' b' c' -> R3 (qstick a a' w) (qstick b b' w) (qstick c c' w).
Proof. intros H H'. unfold qstick. apply ewma_3. now apply diff_3. Qed.
Lemma obv_3 close a b c : S3 a b c -> R3 (obv close a) (obv close b) (obv close c).
Proof.
  intros H. unfold obv.
  assert (G : forall l s s' s'', sum3 s s' s'' -> R3 (rscan (obv_step a) s l) (rscan (obv_step b) s' l) (rscan (obv_step c) s'' l)).
  { induction l as [|[i p] l IH]; intros s s' s'' Hs; cbn [rscan]; [constructor|].
    unfold obv_step at 1 3 5.
    pose proof (f3_idx sum3 (i + 1) _ _ _ H) as D.
    destruct (idx a (i + 1)) as [x|], (idx b (i + 1)) as [y|], (idx c (i + 1)) as [z|]; cbn in D; try easy. cbn [bind].
    assert (Fs : factor (fsignum (fsub (at_ p 1) (at_ p 0)))).
    { intros t. destruct (fsub (at_ p 1) (at_ p 0)) as [r|[]|]; cbn; try easy. now destruct (Rltb r 0). }
    assert (N : sum3 (fadd s (fmul (fsignum (fsub (at_ p 1) (at_ p 0))) x)) (fadd s' (fmul (fsignum (fsub (at_ p 1) (at_ p 0))) y))
      (fadd s'' (fmul (fsignum (fsub (at_ p 1) (at_ p 0))) z))) by (apply s3_add; [easy|now apply s3_mul_l]).
    eapply bind3; [apply IH; exact N|]. intros. apply ok3. now constructor. }
  eapply bind3; [apply G; rewrite x_lit; exact s3_zero|]. intros. apply ok3. constructor; [exact s3_nan|easy].
Qed.
Lemma steps3_3 close a b c : S3 a b c ->
  rel3 (F3 (pr3 (fun x y z => x = y /\ x = z /\ True) sum3)) (steps3 close a) (steps3 close b) (steps3 close c).
Proof.
  intros H. unfold steps3. k3. k3. k3. b3 (f3_slice_from sum3). apply ok3. unfold zip3. apply f3_combine_l; [easy|].
  apply Forall_forall. easy.
Qed.
Lemma tvi_3 close a b c tick : S3 a b c -> R3 (tvi close a tick) (tvi close b tick) (tvi close c tick).
Proof.
  intros H. unfold tvi. b3 steps3_3. apply ok3. constructor; [exact s3_nan|].
  eapply f3_scan with (U := pr3 (fun x y z : bool => x = y /\ x = z) sum3); [|eassumption|split; cbn [fst snd]; [easy|rewrite x_lit; exact s3_zero]].
  intros [d s] [d' s'] [d'' s''] [[p q] v] [[p' q'] v'] [[p'' q''] v''] [[E1 E2] S] [(G1 & G2 & _) V]. cbn in E1, E2, S, G1, G2, V.
  subst. injection G1 as <- <-. injection G2 as <- <-. unfold tvi_step.
  set (u := if fgtb (fsub q p) tick then true else _).
  assert (K : sum3 (fadd s (fmul (fdir u) v)) (fadd s' (fmul (fdir u) v')) (fadd s'' (fmul (fdir u) v''))).
  { apply s3_add; [easy|]. apply s3_mul_l; [|easy]. unfold fdir. destruct u; rewrite ?x_lit; easy. }
  split; cbn [fst snd]; [split; cbn [fst snd]; easy|easy].
Qed.
(** [elder_ray] and [alligator] return two and three values per bar. *)
Lemma f3_zip3 {A B C A' B' C' A'' B'' C''} (T : A -> B -> C -> Prop) (U : A' -> B' -> C' -> Prop) (V : A'' -> B'' -> C'' -> Prop)
  a b c a' b' c' a'' b'' c'' : F3 T a b c -> F3 U a' b' c' -> F3 V a'' b'' c'' ->
  F3 (pr3 (pr3 T U) V) (zip3 a a' a'') (zip3 b b' b'') (zip3 c c' c'').
Proof. intros. unfold zip3. apply f3_combine; [|easy]. now apply f3_combine. Qed.
Lemma elder_ray_3 h1 h2 h3 l1 l2 l3 c1 c2 c3 w : S3 h1 h2 h3 -> S3 l1 l2 l3 -> S3 c1 c2 c3 ->
  rel3 (F3 (pr3 sum3 sum3)) (elder_ray h1 l1 c1 w) (elder_ray h2 l2 c2 w) (elder_ray h3 l3 c3 w).
Proof.
  intros H L C. unfold elder_ray. b3 ewma_3. apply ok3. eapply f3_map; [|eapply f3_zip3; eassumption].
  intros [[x y] z] [[x' y'] z'] [[x'' y''] z''] [[X Y] Z]. cbn in X, Y, Z. split; cbn; now apply s3_sub.
Qed.
Lemma displaced_3 a b c w o m : S3 a b c -> R3 (displaced a w o m) (displaced b w o m) (displaced c w o m).
Proof.
  intros H. unfold displaced. b3 wilder_3. apply ok3. pad3. apply f3_app; [easy|]. apply f3_pad. exact s3_nan.
Qed.
Lemma alligator_3 a b c jw jo tw to lw lo : S3 a b c ->
  rel3 (F3 (pr3 (pr3 sum3 sum3) sum3)) (alligator a jw jo tw to lw lo) (alligator b jw jo tw to lw lo) (alligator c jw jo tw to lw lo).
Proof. intros H. unfold alligator. b3 displaced_3. b3 displaced_3. b3 displaced_3. apply ok3. now apply f3_zip3. Qed.
Lemma to_plus2 r s t : rel3 (F3 (pr3 sum3 sum3)) r s t -> t = plus2_of r s.
Proof.
  destruct r, s, t; cbn; try easy. intros H. f_equal. induction H as [|[] [] [] ? ? ? [X Y] ? IH]; cbn in *; [easy|].
  unfold sum3 in *. now rewrite IH, X, Y.
Qed.
Lemma to_plus3 r s t : rel3 (F3 (pr3 (pr3 sum3 sum3) sum3)) r s t -> t = plus3_of r s.
Proof.
  destruct r, s, t; cbn; try easy. intros H. f_equal. induction H as [|[[]] [[]] [[]] ? ? ? [[X Y] Z] ? IH]; cbn in *; [easy|].
  unfold sum3 in *. now rewrite IH, X, Y, Z.
Qed.

(** ** The theorems *)

Section Theorems.
  Variables (a b : list xr).
  Hypothesis L : length a = length b.
  Ltac super l := apply to_plus; apply l; auto; now apply plus_sum3.

  Theorem sma_super w : sma (plus a b) w = plus_of (sma a w) (sma b w). Proof. super sma_3. Qed.
  Theorem ewma_super w : ewma (plus a b) w = plus_of (ewma a w) (ewma b w). Proof. super ewma_3. Qed.
  Theorem wma_super w : wma (plus a b) w = plus_of (wma a w) (wma b w). Proof. super wma_3. Qed.
  Theorem pwma_super w : pwma (plus a b) w = plus_of (pwma a w) (pwma b w). Proof. super pwma_3. Qed.
  Theorem fwma_super w : fwma (plus a b) w = plus_of (fwma a w) (fwma b w). Proof. super fwma_3. Qed.
  Theorem trima_super w : trima (plus a b) w = plus_of (trima a w) (trima b w). Proof. super trima_3. Qed.
  Theorem wilder_super w : wilder (plus a b) w = plus_of (wilder a w) (wilder b w). Proof. super wilder_3. Qed.
  Theorem dema_super w : dema (plus a b) w = plus_of (dema a w) (dema b w). Proof. super dema_3. Qed.
  Theorem tema_super w : tema (plus a b) w = plus_of (tema a w) (tema b w). Proof. super tema_3. Qed.
  Theorem hull_super w : hull (plus a b) w = plus_of (hull a w) (hull b w). Proof. super hull_3. Qed.
  Theorem zlma_super w : zlma (plus a b) w = plus_of (zlma a w) (zlma b w). Proof. super zlma_3. Qed.
  Theorem lrf_super w : lrf (plus a b) w = plus_of (lrf a w) (lrf b w). Proof. super lrf_3. Qed.
  Theorem t3_super w f : t3 (plus a b) w f = plus_of (t3 a w f) (t3 b w f). Proof. super t3_3. Qed.
  Theorem hwma_super x y z : hwma (plus a b) x y z = plus_of (hwma a x y z) (hwma b x y z). Proof. super hwma_3. Qed.
  Theorem ssf_super w t : 0 < w -> ssf (plus a b) w t = plus_of (ssf a w t) (ssf b w t). Proof. intros. super ssf_3. Qed.
  Theorem kernel_super s : s <> 0%R -> kernel (plus a b) (Fin s) = plus_of (kernel a (Fin s)) (kernel b (Fin s)).
  Proof. intros. super kernel_3. Qed.
  Theorem alma_super w s mu : s <> 0%R -> alma (plus a b) w (Fin s) (option_map Fin mu) =
    plus_of (alma a w (Fin s) (option_map Fin mu)) (alma b w (Fin s) (option_map Fin mu)).
  Proof. intros. super alma_3. Qed.
  Theorem ma_super w m : linear_mode m = true -> ma (plus a b) w m = plus_of (ma a w m) (ma b w m).
  Proof. intros. super ma_3. Qed.
  Theorem macd_super s l : macd (plus a b) s l = plus_of (macd a s l) (macd b s l). Proof. super macd_3. Qed.
  Theorem apo_super s l : apo (plus a b) s l = plus_of (apo a s l) (apo b s l). Proof. super macd_3. Qed.
  Theorem dpo_super w m : linear_mode (unwrap_or m SMA) = true -> dpo (plus a b) w m = plus_of (dpo a w m) (dpo b w m).
  Proof. intros. super dpo_3. Qed.
  Theorem qstick_super c d w : length c = length d -> qstick (plus a b) (plus c d) w = plus_of (qstick a c w) (qstick b d w).
  Proof. intros. apply to_plus. apply qstick_3; now apply plus_sum3. Qed.
  Theorem elder_ray_super c d e f w : length c = length d -> length e = length f ->
    elder_ray (plus a b) (plus c d) (plus e f) w = plus2_of (elder_ray a c e w) (elder_ray b d f w).
  Proof. intros. apply to_plus2. apply elder_ray_3; now apply plus_sum3. Qed.
  Theorem alligator_super jw jo tw to lw lo : alligator (plus a b) jw jo tw to lw lo =
    plus3_of (alligator a jw jo tw to lw lo) (alligator b jw jo tw to lw lo).
  Proof. apply to_plus3. apply alligator_3. now apply plus_sum3. Qed.
  (** Two volume series over the same closes. *)
  Theorem obv_super close : obv close (plus a b) = plus_of (obv close a) (obv close b). Proof. super obv_3. Qed.
  Theorem tvi_super close tick : tvi close (plus a b) tick = plus_of (tvi close a tick) (tvi close b tick). Proof. super tvi_3. Qed.
End Theorems.

(** ** What is not linear *)

Local Open Scope R_scope.
Lemma plus_xseries f g n : plus (xseries f n) (xseries g n) = xseries (fun k => f k + g k) n.
Proof. unfold plus, xseries, series. induction (seq 0 n) as [|k l IH]; [easy|]. cbn [map combine]. now rewrite IH. Qed.
Lemma plus_at a b i x y : nth_error a i = Some x -> nth_error b i = Some y -> nth_error (plus a b) i = Some (fadd x y).
Proof.
  unfold plus. revert b i. induction a as [|u a IH]; intros [|v b] [|i]; cbn; try easy.
  - now intros [= ->] [= ->].
  - apply IH.
Qed.
(** [kama]: its speed depends on the data. *)
Theorem kama_super_refuted : exists a b w, length a = length b /\
  kama (plus a b) w None None <> plus_of (kama a w None None) (kama b w None None).
Proof.
  set (f := fun k => match k with O => 0 | 1%nat => 1 | _ => 2 end). set (g := fun k => match k with O => 0 | 1%nat => 2 | _ => 1 end).
  exists (xseries f 3), (xseries g 3), 3%nat. split; [easy|]. rewrite plus_xseries.
  destruct (kama_real f 3 3 None None) as (o & E & A);
    [lia|intros [|[|[|]]] H; try lia; unfold path, f; cbn; rewrite !Rabs_right; lra|].
  destruct (kama_real g 3 3 None None) as (p & E' & A');
    [lia|intros [|[|[|]]] H; try lia; unfold path, g; cbn; rewrite Rabs_right, Rabs_left; lra|].
  destruct (kama_real (fun k => f k + g k) 3 3 None None) as (q & E'' & A'');
    [lia|intros [|[|[|]]] H; try lia; unfold path, f, g; cbn; rewrite !Rabs_right; lra|].
  rewrite E, E', E''. cbn [plus_of bind]. intros H. injection H as ->.
  pose proof (plus_at _ _ _ _ _ (aligned_at _ _ _ _ _ 2%nat A ltac:(lia)) (aligned_at _ _ _ _ _ 2%nat A' ltac:(lia))) as P.
  rewrite (aligned_at _ _ _ _ _ 2%nat A'' ltac:(lia)) in P. cbn [fadd XR] in P. injection P as P. change (3 - 1)%nat with 2%nat in P.
  rewrite !adaptive_first in P. unfold kama_gain, path, f, g in P. cbn in P.
  rewrite !(Rabs_right (2 - 0)), !(Rabs_right (1 - 0)), !(Rabs_right (2 - 1)), !(Rabs_right (2 + 1 - _)),
     ?(Rabs_right (1 + 2 - _)), !(Rabs_left (1 - 2)) in P by lra. field_simplify in P. lra.
Qed.
(** The mode [Variable_] of [ma], that is [vma]. *)
Theorem vma_super_refuted : exists a b w, length a = length b /\
  ma (plus a b) w Variable_ <> plus_of (ma a w Variable_) (ma b w Variable_).
Proof.
  set (f := fun k => INR k). set (g := fun k => if Nat.even k then 0 else 2).
  exists (xseries f 10), (xseries g 10), 1%nat. split; [easy|]. rewrite plus_xseries. cbn [ma].
  assert (U : last_bars 9 (up_move f) 9 = repeat 1 9 /\ last_bars 9 (down_move f) 9 = repeat 0 9).
  { split; unfold last_bars, up_move, down_move, f; cbn -[INR]; repeat f_equal; 
    rewrite !INR_IZR_INZ; cbn; first [rewrite Rmax_right; lra|rewrite Rmax_left; lra]. }
  assert (V : last_bars 9 (up_move g) 9 = [2;0;2;0;2;0;2;0;2] /\ last_bars 9 (down_move g) 9 = [0;2;0;2;0;2;0;2;0]).
  { split; unfold last_bars, up_move, down_move, g; cbn; repeat f_equal; first [rewrite Rmax_right; lra|rewrite Rmax_left; lra]. }
  assert (W : last_bars 9 (up_move (fun k => f k + g k)) 9 = [3;0;3;0;3;0;3;0;3] /\ last_bars 9 (down_move (fun k => f k + g k)) 9 = [0;1;0;1;0;1;0;1;0]).
  { split; unfold last_bars, up_move, down_move, f, g; cbn -[INR]; repeat f_equal; 
    rewrite !INR_IZR_INZ; cbn; first [rewrite Rmax_right; lra|rewrite Rmax_left; lra]. }
  destruct U as [U1 U2], V as [V1 V2], W as [W1 W2].
  destruct (vma_real f 10 1) as (o & E & A); [intros i H; replace i with 9%nat by lia; rewrite U1, U2; cbn; lra|].
  destruct (vma_real g 10 1) as (p & E' & A'); [intros i H; replace i with 9%nat by lia; rewrite V1, V2; cbn; lra|].
  destruct (vma_real (fun k => f k + g k) 10 1) as (q & E'' & A''); [intros i H; replace i with 9%nat by lia; rewrite W1, W2; cbn; lra|].
  rewrite E, E', E''. cbn [plus_of bind]. intros H. injection H as ->.
  pose proof (plus_at _ _ _ _ _ (aligned_at _ _ _ _ _ 9%nat A ltac:(lia)) (aligned_at _ _ _ _ _ 9%nat A' ltac:(lia))) as P.
  rewrite (aligned_at _ _ _ _ _ 9%nat A'' ltac:(lia)) in P. cbn [fadd XR] in P. injection P as P.
  rewrite !adaptive_first in P. unfold vma_gain in P. rewrite U1, U2, V1, V2, W1, W2 in P. unfold f, g in P. rewrite !INR_IZR_INZ in P. cbn in P.
  rewrite !Rabs_right in P by lra. lra.
Qed.
