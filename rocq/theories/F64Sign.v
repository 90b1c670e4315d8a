(** * F64Sign: which results are never negative in binary64, signed zeros included *)

From Coq Require Import Reals Lra Lia ZArith.
From Flocq Require Import Core IEEE754.BinarySingleNaN.
From Verif Require Import Spec BaseFacts Tac XReal Select Bars B64 F64 Distribution Smooth Momentum Trend Volume Volatility Regression Correlation Pascal F64Facts Refute.
Local Unset Implicit Arguments.
Local Open Scope R_scope.

(** NaN, or a number whose sign bit is clear: [0.0], a positive number or [+inf], but not
    [-0.0]. *)
Definition unsigned (x : f64) : Prop := is_nan x = true \/ Bsign x = false.

Lemma unsigned_nan : unsigned B754_nan. Proof. now left. Qed.
Lemma unsigned_nn x : unsigned x -> nn x.
Proof. destruct x as [[]|[]| |[] q e B]; intros [H|H]; easy. Qed.
Lemma un_add x y : unsigned x -> unsigned y -> unsigned (Bplus mode_NE x y).
Proof.
  intros Hx Hy. destruct x as [[]|[]| |s q e B]; destruct y as [[]|[]| |s' q' e' B']; try (now left); try (now right); try (destruct Hx; discriminate); try (destruct Hy; discriminate).
  all: try (destruct Hx as [Hx|Hx]; [discriminate|cbn in Hx; subst; now right]).
  all: try (destruct Hy as [Hy|Hy]; [discriminate|cbn in Hy; subst; now right]).
  destruct Hx as [Hx|Hx], Hy as [Hy|Hy]; try discriminate. set (x := B754_finite s q e B) in *. set (y := B754_finite s' q' e' B') in *.
  right. pose proof (Bplus_correct 53 1024 _ _ mode_NE x y eq_refl eq_refl) as C. destruct (Rlt_bool _ _).
  - destruct C as (_ & _ & ->). pose proof (Bsign_le x eq_refl) as L1. pose proof (Bsign_le y eq_refl) as L2. rewrite Hx in *. rewrite Hy in *. destruct (Rcompare_spec (B2R x + B2R y) 0); try easy. lra.
  - destruct C as [C S]. rewrite Hx in C. revert C. now destruct (Bplus mode_NE x y) as [[]|[]| |[]].
Qed.
Lemma un_mul x y : unsigned x -> unsigned y -> unsigned (Bmult mode_NE x y).
Proof.
  intros Hx Hy. destruct x as [[]|[]| |s q e B]; destruct y as [[]|[]| |s' q' e' B']; try (now left); try (now right); try (destruct Hx; discriminate); try (destruct Hy; discriminate).
  all: try (destruct Hx as [Hx|Hx]; [discriminate|cbn in Hx; subst; now right]).
  all: try (destruct Hy as [Hy|Hy]; [discriminate|cbn in Hy; subst; now right]).
  destruct Hx as [Hx|Hx], Hy as [Hy|Hy]; try discriminate. set (x := B754_finite s q e B) in *. set (y := B754_finite s' q' e' B') in *.
  right. pose proof (Bmult_correct 53 1024 _ _ mode_NE x y) as C. rewrite Hx, Hy in C. destruct (Rlt_bool _ _).
  - destruct C as (_ & F & S). apply S. destruct (Bmult mode_NE x y); easy.
  - revert C. now destruct (Bmult mode_NE x y) as [[]|[]| |[]].
Qed.
Lemma un_div x y : unsigned x -> unsigned y -> unsigned (Bdiv mode_NE x y).
Proof.
  intros Hx Hy. destruct x as [[]|[]| |s q e B]; destruct y as [[]|[]| |s' q' e' B']; try (now left); try (now right); try (destruct Hx; discriminate); try (destruct Hy; discriminate).
  all: try (destruct Hx as [Hx|Hx]; [discriminate|cbn in Hx; subst; now right]).
  all: try (destruct Hy as [Hy|Hy]; [discriminate|cbn in Hy; subst; now right]).
  destruct Hx as [Hx|Hx], Hy as [Hy|Hy]; try discriminate. set (x := B754_finite s q e B) in *. set (y := B754_finite s' q' e' B') in *.
  assert (NZ : B2R y <> 0). { unfold y. cbn -[F2R]. intros E. apply eq_0_F2R in E. now destruct s'. }
  right. pose proof (Bdiv_correct 53 1024 _ _ mode_NE x y NZ) as C. rewrite Hx, Hy in C. destruct (Rlt_bool _ _).
  - destruct C as (_ & F & S). apply S. change (is_finite x) with true in F. destruct (Bdiv mode_NE x y); easy.
  - revert C. now destruct (Bdiv mode_NE x y) as [[]|[]| |[]].
Qed.
Lemma un_sqrt x : unsigned x -> unsigned (Bsqrt mode_NE x).
Proof.
  intros [H|H]; [destruct x; try easy; now left|]. destruct (is_nan (Bsqrt mode_NE x)) eqn:N; [now left|right]. pose proof (Bsqrt_correct 53 1024 _ _ mode_NE x) as (_ & _ & S). now rewrite S.
Qed.
Lemma un_abs x : unsigned (Babs x). Proof. destruct x; [right|right|left|right]; easy. Qed.
Lemma F2R_nz s q e B : let x := B754_finite s q e B : f64 in if s then B2R x < 0 else 0 < B2R x.
Proof. destruct s; cbn -[F2R]; [now apply F2R_lt_0|now apply F2R_gt_0]. Qed.
Lemma un_sub x y : unsigned x -> Bltb x y = false -> unsigned (Bminus mode_NE x y).
Proof.
  intros U L. destruct x as [s|s| |s q e B]; destruct y as [s'|s'| |s' q' e' B'].
  all: try (now left). all: try (destruct s, s'; (now left) || (now right) || discriminate || (destruct U; discriminate)). all: try (destruct s; (now left) || (now right) || discriminate). all: try (destruct s'; (now left) || (now right) || discriminate).
  set (x := B754_finite s q e B) in *. set (y := B754_finite s' q' e' B') in *.
  assert (LE : B2R y <= B2R x). { rewrite ltb_xval, !xval_fin in L by easy. cbn in L. now apply Rltb_f in L. }
  right. pose proof (Bminus_correct 53 1024 _ _ mode_NE x y eq_refl eq_refl) as C. destruct (Rlt_bool _ _).
  - destruct C as (_ & _ & ->). destruct U as [U|U]; [easy|]. rewrite U. destruct (Rcompare_spec (B2R x - B2R y) 0); try easy. lra.
  - destruct C as [C S]. revert C. destruct U as [U|U]; [easy|]. rewrite U. now destruct (Bminus mode_NE x y) as [[]|[]| |[]].
Qed.

(** ** Building blocks *)
Section Blocks.
  Context {m : libm}.
  Lemma un_of_Z z : (0 <= z)%Z -> unsigned (b64_of_Z z).
  Proof. intros H. right. unfold b64_of_Z. destruct (Z.eq_dec z 0) as [-> |N]; [reflexivity|]. pose proof (of_Z_pos z ltac:(lia)) as P. fold (b64_of_Z z). revert P. generalize (b64_of_Z z). intros [[]|[]| |[] q e Bd] P; try easy. all: exfalso; now vm_compute in P. Qed.
  Lemma un_nat n : unsigned (@fofnat f64 (B64 m) n). Proof. apply un_of_Z. lia. Qed.
  Lemma un_N n : unsigned (@fofN f64 (B64 m) n). Proof. apply un_of_Z. lia. Qed.
  Lemma un_lit z d : (0 <= z)%Z -> unsigned (@flit f64 (B64 m) z d).
  Proof. intros H. cbn [flit B64]. unfold b64_lit. destruct d; [apply un_div; apply un_of_Z; lia|apply un_div; apply un_of_Z; lia|now apply un_of_Z]. Qed.
  Lemma un_sq x : unsigned (@powi2 f64 (B64 m) x).
  Proof.
    unfold powi2. cbn [fmul B64]. destruct x as [[]|[]| |s q e Bd]; try (now left); try (now right). right. set (x := B754_finite s q e Bd).
    pose proof (Bmult_correct 53 1024 _ _ mode_NE x x) as C. rewrite Bool.xorb_nilpotent in C. destruct (Rlt_bool _ _).
    - destruct C as (_ & F & S). apply S. destruct (Bmult mode_NE x x); easy.
    - revert C. now destruct (Bmult mode_NE x x) as [[]|[]| |[]].
  Qed.
  Lemma un_max x y : unsigned x -> unsigned y -> unsigned (@fmax f64 (B64 m) x y).
  Proof. intros Hx Hy. unfold fmax. destruct (fisnan x), (fisnan y), (fltb x y); easy. Qed.
  Lemma un_min x y : unsigned x -> unsigned y -> unsigned (@fmin f64 (B64 m) x y).
  Proof. intros Hx Hy. unfold fmin. destruct (fisnan x), (fisnan y), (fltb y x); easy. Qed.
  Lemma un_fold {A} (f : f64 -> A -> f64) l : forall a, unsigned a -> (forall a x, In x l -> unsigned a -> unsigned (f a x)) -> unsigned (fold_left f l a).
  Proof. induction l as [|x l IH]; intros a Ha H; cbn; [easy|]. apply IH; [apply H; [now left|easy]|]. intros; apply H; [now right|easy]. Qed.
  (** A sum may start from [-0.0]; one term is enough to lose its sign. *)
  Lemma un_sum l : l <> [] -> (forall x, In x l -> unsigned x) -> unsigned (@fsum f64 (B64 m) l).
  Proof.
    intros N H. unfold fsum. destruct l as [|x l]; [easy|]. cbn [fold_left]. apply un_fold; [|intros a y Hy Ha; apply un_add; [easy|apply H; now right]].
    pose proof (H x (or_introl eq_refl)) as Hx. cbn [fsum0 fadd B64]. destruct x as [[]|[]| |[] q e Bd]; destruct (lm_negsum0 m); try (now left); try (now right); destruct Hx; discriminate.
  Qed.
  Lemma un_at l i : (forall x, In x l -> unsigned x) -> unsigned (@at_ f64 (B64 m) l i).
  Proof. intros H. unfold at_. destruct (Nat.lt_ge_cases i (length l)) as [L|L]; [apply H, nth_In, L|]. rewrite nth_overflow by easy. now left. Qed.
  Lemma un_last l : (forall x, In x l -> unsigned x) -> unsigned (@last_ f64 (B64 m) l).
  Proof. intros H. exact (un_at l _ H). Qed.
  Lemma un_scan {A S} (f : S -> A -> S * f64) (P : S -> Prop) l : forall s, P s -> (forall s a, In a l -> P s -> P (fst (f s a)) /\ unsigned (snd (f s a))) -> forall x, In x (scan f s l) -> unsigned x.
  Proof.
    induction l as [|a l IH]; intros s Ps H x Hx; cbn [scan] in Hx; [easy|]. destruct (f s a) as [s' b] eqn:E. destruct (H s a (or_introl eq_refl) Ps) as [H1 H2]. rewrite E in H1, H2. cbn [fst snd] in *. destruct Hx as [<-|Hx]; [easy|]. apply (IH s' H1); [|easy]. intros; apply H; [now right|easy].
  Qed.
  Lemma un_pad_app k l : (forall x, In x l -> unsigned x) -> forall x, In x (pad k B754_nan ++ l) -> unsigned x.
  Proof. intros H x Hx. apply in_app_iff in Hx as [Hx|Hx]; [apply in_pad in Hx; subst; now left|now apply H]. Qed.
  Lemma un_map {A} (f : A -> f64) l : (forall a, In a l -> unsigned (f a)) -> forall x, In x (map f l) -> unsigned x.
  Proof. intros H x Hx. apply in_map_iff in Hx as (a & <- & Ha). now apply H. Qed.
  Lemma in_of_windows {A} w (l v : list A) : In v (windows w l) -> forall x, In x v -> In x l.
  Proof. intros H x Hx. apply In_windows in H as (i & Hi & ->). now apply firstn_in, skipn_in in Hx. Qed.
End Blocks.

(** Every number of the series is unsigned. *)
Definition ups (l : list f64) : Prop := forall x, In x l -> unsigned x.
Lemma ups_pad k l : ups l -> ups (pad k B754_nan ++ l). Proof. intros H x. now apply un_pad_app. Qed.
Lemma ups_map {A} (f : A -> f64) l : (forall a, In a l -> unsigned (f a)) -> ups (map f l). Proof. intros H x. now apply un_map. Qed.
Lemma ups_skipn k l : ups l -> ups (skipn k l). Proof. intros H x Hx. apply H. eapply skipn_in, Hx. Qed.
Lemma ups_firstn k l : ups l -> ups (firstn k l). Proof. intros H x Hx. apply H. eapply firstn_in, Hx. Qed.
Lemma ups_window w l v : ups l -> In v (windows w l) -> ups v. Proof. intros H Hv x Hx. apply H. eapply in_of_windows; eauto. Qed.
Lemma ups_cons x l : unsigned x -> ups l -> ups (x :: l). Proof. intros H1 H2 y [<-|Hy]; [easy|now apply H2]. Qed.
Lemma window_full {A} w (l v : list A) : (0 < w)%nat -> In v (windows w l) -> v <> [].
Proof. intros Hw H E. subst. apply windows_length in H; [|easy]. cbn in H. lia. Qed.

Lemma bind_Ok {A B} (r : result A) (f : A -> result B) o : bind r f = Ok o -> exists a, r = Ok a /\ f a = Ok o.
Proof. destruct r; [eauto|easy]. Qed.
Lemma usub_Ok a b k : usub a b = Ok k -> (b <= a)%nat /\ k = (a - b)%nat.
Proof. unfold usub. destruct (Nat.leb_spec b a); intros E; [injection E as <-; easy|easy]. Qed.
Lemma rwindows_Ok {A} w (l : list A) ws : rwindows w l = Ok ws -> (0 < w)%nat /\ ws = windows w l.
Proof. unfold rwindows. destruct (Nat.eqb_spec w 0); intros E; [easy|]. injection E as <-. split; [lia|easy]. Qed.
Lemma slice_from_Ok {A} (l : list A) k t : slice_from l k = Ok t -> (k <= length l)%nat /\ t = skipn k l.
Proof. unfold slice_from. destruct (Nat.leb_spec k (length l)); intros E; [injection E as <-; easy|easy]. Qed.
Lemma slice_to_Ok {A} (l : list A) k t : slice_to l k = Ok t -> (k <= length l)%nat /\ t = firstn k l.
Proof. unfold slice_to. destruct (Nat.leb_spec k (length l)); intros E; [injection E as <-; easy|easy]. Qed.
Lemma Ok_inj {A} (a b : A) : Ok a = Ok b -> b = a. Proof. congruence. Qed.
Ltac inv E :=
  repeat (match type of E with bind _ _ = Ok _ => idtac end; let a := fresh "a" in let q := fresh "Q" in apply bind_Ok in E as (a & q & E);
    first [apply usub_Ok in q as [? ->]|apply rwindows_Ok in q as [? ->]|apply slice_from_Ok in q as [? ->]|apply slice_to_Ok in q as [? ->]|idtac]);
  match type of E with Ok _ = Ok _ => apply Ok_inj in E; subst | _ => idtac end.

(** ** Averages of unsigned prices are unsigned *)
Section Averages.
  Context (m : libm).
  Theorem sma_f64_unsigned (data : list f64) w o : @sma f64 (B64 m) data w = Ok o -> ups data -> ups o.
  Proof.
    intros E H. unfold sma in E. inv E. apply ups_pad, ups_map. intros v Hv. apply un_div; [|apply un_nat]. apply un_sum; [eapply window_full; eauto|eapply ups_window; eauto].
  Qed.
  Theorem trima_f64_unsigned (data : list f64) w o : @trima f64 (B64 m) data w = Ok o -> ups data -> ups o.
  Proof. intros E H. unfold trima in E. inv E. eapply sma_f64_unsigned; [exact E|]. eapply sma_f64_unsigned; eauto. Qed.
  Lemma one_minus_alpha w : (0 < w)%nat -> unsigned (@fsub f64 (B64 m) (flit 1 1) (@fdiv f64 (B64 m) (flit 2 1) (fofnat (w + 1)))).
  Proof.
    intros Hw. apply un_sub; [now right|]. change (flit 1 1) with (b64_of_Z 1). change (flit 2 1) with (b64_of_Z 2).
    assert (P : xleb (Fin 2) (xval (@fofnat f64 (B64 m) (w + 1))) = true).
    { change (@fofnat f64 (B64 m) (w + 1)) with (b64_of_Z (Z.of_N (N.of_nat (w + 1)))). rewrite xval_of_Z_gen. replace (Fin 2) with (fl 2) by (change 2 with (IZR 2); now apply fl_Z). apply fl_le. apply IZR_le. lia. }
    assert (X2 : xval (b64_of_Z 2) = Fin 2) by now apply xval_of_Z. assert (X1 : xval (b64_of_Z 1) = Fin 1) by now apply xval_of_Z.
    assert (X1F : fin (b64_of_Z 1) /\ B2R (b64_of_Z 1) = 1) by (apply xval_fin_inv; exact X1). assert (X2F : fin (b64_of_Z 2) /\ B2R (b64_of_Z 2) = 2) by (apply xval_fin_inv; exact X2). destruct X2F as [F2 V2].
    rewrite ltb_xval, X1. cbn [fdiv B64]. revert P. set (y := @fofnat f64 (B64 m) (w + 1)). change (@fofnat f64 (B64 m) (w + 1)) with y. clearbody y. intros P. fsplit y.
    - rewrite xval_fin in P by easy. cbn in P. apply Rleb_t in P. assert (YN : B2R y <> 0) by lra. rewrite (xval_div _ y F2 F YN), V2.
      pose proof (fl_le (2 / B2R y) 1) as L. rewrite (fl_Z 1) in L by easy. assert (Q : 2 / B2R y <= 1) by (apply Rmult_le_reg_r with (B2R y); [lra|]; unfold Rdiv; rewrite Rmult_assoc, Rinv_l by lra; lra). specialize (L Q). revert L. destruct (fl (2 / B2R y)) as [v|[]|]; cbn; try easy. intros L. apply Rleb_t in L. now apply Rltb_f.
    - destruct s; [easy|]. cbn. destruct (b64_of_Z 2) as [[]|[]| |[]]; try easy; cbn; now apply Rltb_f; lra.
    - easy.
  Qed.
  Theorem ewma_f64_unsigned (data : list f64) w o : @ewma f64 (B64 m) data w = Ok o -> ups data -> ups o.
  Proof.
    intros E H. unfold ewma in E. inv E. assert (I : unsigned (@fdiv f64 (B64 m) (fsum (firstn w data)) (fofnat w))).
    { apply un_div; [|apply un_nat]. apply un_sum; [|now apply ups_firstn]. intros N. apply (f_equal (@length f64)) in N. rewrite firstn_length in N. cbn in N. lia. }
    apply ups_pad, ups_cons; [exact I|]. intros x Hx. revert x Hx. apply (un_scan _ unsigned); [exact I|]. intros s a Ha Hs. unfold ewma_step. cbn [fst snd].
    assert (G : unsigned (@fadd f64 (B64 m) (fmul a (fdiv (flit 2 1) (fofnat (w + 1)))) (fmul s (fsub (flit 1 1) (fdiv (flit 2 1) (fofnat (w + 1))))))); [|easy].
    apply un_add; apply un_mul; [apply H; eapply skipn_in, Ha|apply un_div; [exact (un_lit 2 1 ltac:(easy))|apply un_nat]|exact Hs|apply one_minus_alpha; lia].
  Qed.
  Theorem wilder_f64_unsigned (data : list f64) w o : @wilder f64 (B64 m) data w = Ok o -> ups data -> ups o.
  Proof.
    intros E H. unfold wilder in E. destruct (Nat.eqb_spec w 1) as [-> |N]; [injection E as <-; exact H|]. inv E. apply ups_pad. intros x Hx. revert x Hx.
    apply (un_scan _ unsigned).
    - apply un_div; [|apply un_nat]. apply un_sum; [|now apply ups_firstn]. intros Z. apply (f_equal (@length f64)) in Z. rewrite firstn_length in Z. cbn in Z. lia.
    - intros s a Ha Hs. unfold wilder_step. cbn [fst snd]. assert (G : unsigned (@fdiv f64 (B64 m) (fadd (fmul s (fofnat (w - 1))) a) (fofnat w))); [|easy].
      apply un_div; [|apply un_nat]. apply un_add; [|apply H; eapply skipn_in, Ha]. apply un_mul; [easy|apply un_nat].
  Qed.
  Lemma un_dot (weights v : list f64) : weights <> [] -> v <> [] -> ups weights -> ups v -> unsigned (@dot f64 (B64 m) weights v).
  Proof.
    intros N1 N2 H1 H2. unfold dot. apply un_sum; [destruct v, weights; easy|]. apply ups_map. intros [x y] Hp. apply un_mul; [apply H2; eapply in_combine_l, Hp|apply H1; eapply in_combine_r, Hp].
  Qed.
  Theorem wma_f64_unsigned (data : list f64) w o : @wma f64 (B64 m) data w = Ok o -> ups data -> ups o.
  Proof.
    intros E H. unfold wma in E. inv E. unfold wma_weights in Q. inv Q. apply ups_pad, ups_map. intros v Hv. apply un_dot; [destruct w; [lia|easy]|eapply window_full; eauto| |eapply ups_window; eauto].
    apply ups_map. intros i _. apply un_div; [apply un_nat|]. apply un_div; [apply un_N|exact (un_lit 2 1 ltac:(easy))].
  Qed.
  Theorem pwma_f64_unsigned (data : list f64) w o : @pwma f64 (B64 m) data w = Ok o -> ups data -> ups o.
  Proof.
    intros E H. unfold pwma in E. inv E. destruct a as [row denom]. inv E. assert (L : length row = w). { destruct (le_lt_dec 64 w) as [G|G]; [now rewrite pascal_row_big in Q|]. rewrite pascal_row_small in Q by lia. injection Q as <- _. now rewrite map_length, seq_length. } apply ups_pad, ups_map. intros v Hv. apply un_dot; [|eapply window_full; eauto| |eapply ups_window; eauto].
    - destruct row; [cbn in L; lia|easy].
    - apply ups_map. intros i _. apply un_div; apply un_N.
  Qed.
  Lemma ups_fib k : ups (@fib_weights f64 (B64 m) k) /\ @fib_weights f64 (B64 m) k <> [].
  Proof.
    assert (S : ups (@fib_seq f64 (B64 m) k)).
    { unfold fib_seq. apply ups_cons; [now right|]. apply ups_cons; [now right|]. intros x Hx. revert x Hx. apply (un_scan _ (fun p => unsigned (fst p) /\ unsigned (snd p))).
      - split; now right.
      - intros [a b] i _ [Ha Hb]. cbn [fst snd] in *. assert (unsigned (Bplus mode_NE a b)) by now apply un_add. easy. }
    split; [|easy]. unfold fib_weights. apply ups_map. intros i Hi. apply un_div; [now apply S|]. apply un_fold; [now right|]. intros a x Hx Ha. apply un_add; [easy|]. apply S. eapply skipn_in, Hx.
  Qed.
  Theorem fwma_f64_unsigned (data : list f64) w o : @fwma f64 (B64 m) data w = Ok o -> ups data -> ups o.
  Proof.
    intros E H. unfold fwma in E. inv E. destruct (ups_fib (w - 2)) as [U N]. apply ups_pad, ups_map. intros v Hv. apply un_dot; [exact N|apply (window_full w data); [lia|exact Hv]|exact U|apply (ups_window w data); [exact H|exact Hv]].
  Qed.
  (** Gaussian weights: [exp] is only asked never to return a negative number. *)
  Definition exp_unsigned : Prop := forall x, unsigned (lm_exp m x).
  Lemma un_weighted (weights v : list f64) : ups weights -> ups v -> unsigned (@weighted_mean f64 (B64 m) weights v).
  Proof.
    intros H1 H2. unfold weighted_mean.
    assert (G : forall l s sw, (forall p, In p l -> unsigned (fst p) /\ unsigned (snd p)) -> unsigned s -> unsigned sw -> let '(a, b) := fold_left (fun '(s, sw) '(w, v) => (@fadd f64 (B64 m) s (fmul w v), @fadd f64 (B64 m) sw w)) l (s, sw) in unsigned a /\ unsigned b).
    { induction l as [|[a b] l IH]; intros s sw Hl Hs Hw; cbn [fold_left]; [easy|]. destruct (Hl (a, b) (or_introl eq_refl)) as [Ha Hb]. cbn [fst snd] in *. apply IH; [intros p Hp; apply Hl; now right| |]; cbn [fadd fmul B64]; [apply un_add; [easy|now apply un_mul]|now apply un_add]. }
    specialize (G (combine weights v) (flit 0 1) (flit 0 1)). destruct (fold_left _ _ _) as [a b]. destruct G as [Ha Hb]; [|now right|now right|now apply un_div].
    intros [x y] Hp. split; [apply H1; eapply in_combine_l, Hp|apply H2; eapply in_combine_r, Hp].
  Qed.
  Theorem kernel_f64_unsigned (data : list f64) sigma o : exp_unsigned -> @kernel f64 (B64 m) data sigma = Ok o -> ups data -> ups o.
  Proof.
    intros X E H. unfold kernel in E. injection E as <-. apply ups_map. intros i Hi. apply un_weighted; [apply ups_map; intros; apply X|]. apply ups_firstn. intros x Hx. apply in_rev in Hx. apply H. eapply firstn_in, Hx.
  Qed.
  Theorem alma_f64_unsigned (data : list f64) w sigma mu o : exp_unsigned -> @alma f64 (B64 m) data w sigma mu = Ok o -> ups data -> ups o.
  Proof.
    intros X E H. unfold alma in E. inv E. apply ups_pad, ups_map. intros i Hi. apply un_weighted; [apply ups_map; intros; apply X|]. apply ups_map. intros j Hj. apply un_at. exact H.
  Qed.
  Theorem vwma_f64_unsigned (data volume : list f64) w o : @vwma f64 (B64 m) data volume w = Ok o -> ups data -> ups volume -> ups o.
  Proof.
    intros E H1 H2. unfold vwma in E. inv E. apply ups_pad, ups_map. intros [x y] Hp. pose proof (in_combine_l _ _ _ _ Hp) as Hx. pose proof (in_combine_r _ _ _ _ Hp) as Hy.
    unfold vwma_win. cbn [fst snd]. apply un_div; [|apply un_sum; [eapply window_full; eauto|eapply ups_window; eauto]]. apply un_fold; [now right|]. intros a [u v] Hq Ha. apply un_add; [easy|]. apply un_mul; [eapply (ups_window w data x); eauto; eapply in_combine_l, Hq|eapply (ups_window w volume y); eauto; eapply in_combine_r, Hq].
  Qed.
  Theorem vwap_f64_unsigned (high low close volume : list f64) resets o : @vwap f64 (B64 m) high low close volume resets = Ok o -> ups high -> ups low -> ups close -> ups volume -> ups o.
  Proof.
    intros E Hh Hl Hc Hv. unfold vwap in E.
    assert (G : forall l s o, (forall i q, In (i, q) l -> let '(h, l, c, v) := q in unsigned h /\ unsigned l /\ unsigned c /\ unsigned v) -> unsigned (fst (fst s)) -> unsigned (snd (fst s)) -> rscan (@vwap_step f64 (B64 m)) s l = Ok o -> ups o).
    { induction l as [|[i [[[h lo] c] v]] l IH]; intros [[tp vs] rs] o' Hq H1 H2 R; cbn [rscan] in R; [injection R as <-; intros x []|].
      destruct (vwap_step (tp, vs, rs) (i, (h, lo, c, v))) as [[s' b]|] eqn:S; cbn [bind] in R; [|easy]. destruct (rscan _ s' l) as [o2|] eqn:R2; cbn [bind] in R; [|easy]. injection R as <-.
      destruct (Hq i (h, lo, c, v) (or_introl eq_refl)) as (U1 & U2 & U3 & U4). cbn [fst snd] in H1, H2. unfold vwap_step in S. destruct (idx rs 0) as [r|]; cbn [bind] in S; [|easy].
      assert (K : forall tp0 vs0 rs0, unsigned tp0 -> unsigned vs0 -> Ok (fadd tp0 (fmul (fdiv (fadd (fadd h lo) c) (flit 3 1)) v), fadd vs0 v, rs0, fdiv (fadd tp0 (fmul (fdiv (fadd (fadd h lo) c) (flit 3 1)) v)) (@fadd f64 (B64 m) vs0 v)) = Ok (s', b) -> unsigned (fst (fst s')) /\ unsigned (snd (fst s')) /\ unsigned b).
      { intros tp0 vs0 rs0 K1 K2 K. injection K as <- <-. cbn [fst snd]. assert (A : unsigned (@fadd f64 (B64 m) tp0 (fmul (fdiv (fadd (fadd h lo) c) (flit 3 1)) v))). { apply un_add; [easy|]. apply un_mul; [|easy]. apply un_div; [apply un_add; [now apply un_add|easy]|exact (un_lit 3 1 ltac:(easy))]. }
        assert (A2 : unsigned (@fadd f64 (B64 m) vs0 v)) by now apply un_add. split; [exact A|]. split; [exact A2|]. now apply un_div. }
      assert (KK : unsigned (fst (fst s')) /\ unsigned (snd (fst s')) /\ unsigned b) by (destruct (i =? r)%nat; [apply (K (flit 0 1) (flit 0 1) (rotate1 rs)); try (now right); exact S|apply (K tp vs rs); try easy; exact S]).
      destruct KK as (K1 & K2 & K3). apply ups_cons; [exact K3|]. apply (IH s' o2); [intros j q Hj; apply (Hq j q); now right|exact K1|exact K2|exact R2]. }
    refine (G _ _ _ _ _ _ E); [|now right|now right]. intros i [[[h l] c] v] Hi. apply in_combine_r in Hi. unfold zip4, zip3 in Hi.
    pose proof (in_combine_r _ _ _ _ Hi) as V. apply in_combine_l in Hi. pose proof (in_combine_r _ _ _ _ Hi) as C. apply in_combine_l in Hi. pose proof (in_combine_r _ _ _ _ Hi) as L. apply in_combine_l in Hi. auto.
  Qed.
End Averages.

(** ** Error measures, spreads and distances *)
Section Measures.
  Context (m : libm).
  (** Running sums over pairs. *)
  Lemma un_running (h : nat -> f64 -> f64 -> f64) (g : f64 -> nat -> f64) (a b : list f64) :
    (forall i x y, In x a -> In y b -> unsigned (h i x y)) -> (forall s i, unsigned s -> unsigned (g s i)) ->
    ups (scan (fun state '(cnt, observe, est) => let state' := @fadd f64 (B64 m) state (h cnt observe est) in (state', g state' cnt)) (flit 0 1) (obs_est a b)).
  Proof.
    intros Hh Hg x Hx. revert x Hx. apply (un_scan _ unsigned); [now right|]. intros s [[i u] v] Hp Hs. cbv zeta. cbn [fst snd].
    assert (G : unsigned (@fadd f64 (B64 m) s (h i u v))). { apply un_add; [easy|]. unfold obs_est in Hp. pose proof (in_combine_r _ _ _ _ Hp) as H2. apply in_combine_l in Hp. apply in_combine_r in Hp. now apply Hh. }
    split; [exact G|now apply Hg].
  Qed.
  Theorem mse_f64_unsigned (a b : list f64) : ups (@mse f64 (B64 m) a b).
  Proof. apply (un_running (fun _ x y => powi2 (fsub x y)) (fun s i => fdiv s (fofnat (i + 1)))); [intros; apply un_sq|intros; apply un_div; [easy|apply un_nat]]. Qed.
  Theorem rmse_f64_unsigned (a b : list f64) : ups (@rmse f64 (B64 m) a b).
  Proof. apply (un_running (fun _ x y => powi2 (fsub x y)) (fun s i => fsqrt (fdiv s (fofnat (i + 1))))); [intros; apply un_sq|intros; apply un_sqrt, un_div; [easy|apply un_nat]]. Qed.
  Theorem mae_f64_unsigned (a b : list f64) : ups (@mae f64 (B64 m) a b).
  Proof. apply (un_running (fun _ x y => fabs (fsub x y)) (fun s i => fdiv s (fofnat (i + 1)))); [intros; apply un_abs|intros; apply un_div; [easy|apply un_nat]]. Qed.
  Theorem mape_f64_unsigned (a b : list f64) : ups (@mape f64 (B64 m) a b).
  Proof. apply (un_running (fun _ x y => fabs (fdiv (fsub x y) x)) (fun s i => fdiv (fmul (flit 100 1) s) (fofnat (i + 1)))); [intros; apply un_abs|intros; apply un_div; [|apply un_nat]]. apply un_mul; [exact (un_lit 100 1 ltac:(easy))|easy]. Qed.
  Theorem smape_f64_unsigned (a b : list f64) : ups (@smape f64 (B64 m) a b).
  Proof.
    apply (un_running (fun _ x y => fmax (fdiv (fabs (fsub x y)) (fdiv (fadd (fabs x) (fabs y)) (flit 2 1))) (flit 0 1)) (fun s i => fdiv (fmul (flit 100 1) s) (fofnat (i + 1)))).
    - intros. apply un_max; [|now right]. apply un_div; [apply un_abs|]. apply un_div; [apply un_add; apply un_abs|exact (un_lit 2 1 ltac:(easy))].
    - intros; apply un_div; [|apply un_nat]. apply un_mul; [exact (un_lit 100 1 ltac:(easy))|easy].
  Qed.
  Theorem mase_f64_unsigned (a b : list f64) o : @mase f64 (B64 m) a b = Ok o -> ups o.
  Proof.
    intros E. unfold mase in E. inv E. apply ups_cons; [now left|]. apply ups_map. intros [x y] Hp. pose proof (in_combine_r _ _ _ _ Hp) as H2. apply in_combine_l in Hp. apply un_div; [apply (mae_f64_unsigned a b); eapply skipn_in, Hp|].
    revert y H2. apply (un_scan _ unsigned); [now right|]. intros s [v i] _ Hs. cbv zeta. cbn [fst snd]. assert (G : unsigned (@fadd f64 (B64 m) s (fabs (fsub (at_ v 1) (at_ v 0))))) by (apply un_add; [easy|apply un_abs]). split; [exact G|]. apply un_div; [exact G|apply un_nat].
  Qed.
  Theorem emae_f64_unsigned (a b : list f64) o : @emae f64 (B64 m) a b = Ok o -> ups a -> ups b -> ups o.
  Proof.
    intros E Ha Hb. unfold emae in E. inv E. intros x Hx. revert x Hx. apply (un_scan _ (fun p => unsigned (fst p) /\ unsigned (snd p))); [split; now right|]. intros [s0 s1] [[u v] n] Hp [H0 H1]. cbv zeta. cbn [fst snd] in *.
    unfold zip_i32 in Q. destruct (N.ltb _ _); [|easy]. apply Ok_inj in Q. subst. apply in_combine_l in Hp. pose proof (in_combine_r _ _ _ _ Hp) as H2. apply in_combine_l in Hp.
    assert (G0 : unsigned (@fadd f64 (B64 m) s0 (fabs (fsub u v)))) by (apply un_add; [easy|apply un_abs]). assert (G1 : unsigned (@fadd f64 (B64 m) s1 (fmax u v))) by (apply un_add; [easy|apply un_max; auto]).
    split; [split; [exact G0|exact G1]|]. apply un_div; [|apply un_nat]. apply un_mul; [now apply un_div|exact (un_lit 100 1 ltac:(easy))].
  Qed.
  Lemma un_dev2 mu l : unsigned (@sum_dev2 f64 (B64 m) mu l).
  Proof. unfold sum_dev2. apply un_fold; [now right|]. intros a x _ Ha. apply un_add; [easy|apply un_sq]. Qed.
  Theorem variance_f64_unsigned (data : list f64) w o : @variance f64 (B64 m) data w = Ok o -> ups o.
  Proof. intros E. unfold variance in E. inv E. apply ups_pad, ups_map. intros v Hv. apply un_div; [apply un_dev2|apply un_nat]. Qed.
  Theorem std_dev_f64_unsigned (data : list f64) w o : @std_dev f64 (B64 m) data w = Ok o -> ups o.
  Proof. intros E. unfold std_dev, std_dev_raw in E. inv E. inv Q. apply ups_pad, ups_map. intros v Hv. apply un_sqrt, un_div; [apply un_dev2|apply un_nat]. Qed.
  Theorem mad_f64_unsigned (data : list f64) w o : @mad f64 (B64 m) data w = Ok o -> ups o.
  Proof. intros E. unfold mad in E. inv E. apply ups_pad, ups_map. intros v Hv. apply un_div; [|apply un_nat]. apply un_fold; [now right|]. intros a y _ Ha. apply un_add; [easy|apply un_abs]. Qed.
  Theorem cv_f64_unsigned (data : list f64) w o : @cv f64 (B64 m) data w = Ok o -> ups data -> ups o.
  Proof.
    intros E H. unfold cv in E. inv E. apply ups_pad, ups_map. intros v Hv. apply un_div; [apply un_sqrt, un_div; [apply un_dev2|apply un_nat]|]. apply un_div; [|apply un_nat]. apply un_sum; [apply (window_full w data); [lia|exact Hv]|apply (ups_window w data); [exact H|exact Hv]].
  Qed.
  Theorem rsq_f64_unsigned (a b : list f64) w o : @rsq f64 (B64 m) a b w = Ok o -> ups o.
  Proof. intros E. unfold rsq in E. inv E. apply ups_map. intros x _. exact (un_sq (m := m) x). Qed.
  Theorem rsc_f64_unsigned (a b : list f64) : ups a -> ups b -> ups (@rsc f64 (B64 m) a b).
  Proof. intros Ha Hb. apply ups_map. intros [x y] Hp. apply un_div; [apply Ha; eapply in_combine_l, Hp|apply Hb; eapply in_combine_r, Hp]. Qed.
  Theorem perf_f64_unsigned (a b : list f64) w o : @perf f64 (B64 m) a b w = Ok o -> ups a -> ups b -> ups o.
  Proof.
    intros E Ha Hb. unfold perf in E. inv E. apply (sma_f64_unsigned m _ _ _) in Q; [|exact Ha]. apply (sma_f64_unsigned m _ _ _) in Q0; [|exact Hb]. apply ups_map. intros [[[x y] u] v] Hp. unfold zip4, zip3 in Hp.
    pose proof (in_combine_r _ _ _ _ Hp) as H4. apply in_combine_l in Hp. pose proof (in_combine_r _ _ _ _ Hp) as H3. apply in_combine_l in Hp. pose proof (in_combine_r _ _ _ _ Hp) as H2. apply in_combine_l in Hp. apply un_mul; apply un_div; auto.
  Qed.
  Lemma hl_ups (high low : list f64) : ups high -> (forall h l, In (h, l) (combine high low) -> Bltb h l = false) -> ups (@hl_range f64 (B64 m) high low).
  Proof. intros H L. apply ups_map. intros [h l] Hp. apply un_sub; [apply H; eapply in_combine_l, Hp|now apply L]. Qed.
  Theorem mass_f64_unsigned (high low : list f64) s l o : ups high -> (forall h l, In (h, l) (combine high low) -> Bltb h l = false) -> @mass f64 (B64 m) high low s l = Ok o -> ups o.
  Proof.
    intros H L E. unfold mass in E. inv E. pose proof (ewma_f64_unsigned m _ _ _ Q (hl_ups high low H L)) as U. match goal with E2 : ewma (skipn _ a) s = Ok _ |- _ => pose proof (ewma_f64_unsigned m _ _ _ E2 (ups_skipn _ _ U)) as U2 end.
    apply ups_pad, ups_map. intros v Hv. apply un_sum; [eapply window_full; [|exact Hv]; lia|]. eapply ups_window; [|exact Hv]. apply ups_map. intros [x y] Hp. apply un_div; [apply U; eapply skipn_in, in_combine_l, Hp|apply U2; eapply in_combine_r, Hp].
  Qed.
  Lemma tr_un h l c : unsigned (@fsub f64 (B64 m) h l) -> unsigned (@tr_bar f64 (B64 m) h l c).
  Proof. intros H. unfold tr_bar. apply un_max; [apply un_max; [exact H|apply un_abs]|apply un_abs]. Qed.
  (** True range of bars whose high is not below their low. *)
  Theorem tr_f64_unsigned (high low close : list f64) o : ups high -> (forall h l, In (h, l) (combine high low) -> Bltb h l = false) -> @tr f64 (B64 m) high low close = Ok o -> ups o.
  Proof.
    intros H L E. unfold tr, true_range in E. inv E. inv Q. apply ups_cons; [now left|]. apply ups_map. intros [[h l] c] Hp. unfold zip3 in Hp. apply in_combine_l in Hp. apply tr_un, un_sub; [apply H; eapply skipn_in, in_combine_l, Hp|]. apply L. destruct high as [|h0 high]; [destruct Hp|]. destruct low as [|l0 low]; [cbn in H1; lia|]. now right.
  Qed.
  Theorem typical_f64_unsigned (high low close : list f64) w o : @typical f64 (B64 m) high low close w = Ok o -> ups high -> ups low -> ups close -> ups o.
  Proof.
    intros E Hh Hl Hc. unfold typical in E. eapply sma_f64_unsigned; [exact E|]. apply ups_map. intros [[h l] c] Hp. unfold zip3 in Hp. pose proof (in_combine_r _ _ _ _ Hp) as H3. apply in_combine_l in Hp. pose proof (in_combine_r _ _ _ _ Hp) as H2. apply in_combine_l in Hp. apply un_div; [apply un_add; [apply un_add|]; auto|exact (un_lit 3 1 ltac:(easy))].
  Qed.
  Theorem wcp_f64_unsigned (high low close : list f64) : ups high -> ups low -> ups close -> ups (@wcp f64 (B64 m) high low close).
  Proof.
    intros Hh Hl Hc. apply ups_map. intros [[h l] c] Hp. unfold zip3 in Hp. pose proof (in_combine_r _ _ _ _ Hp) as H3. apply in_combine_l in Hp. pose proof (in_combine_r _ _ _ _ Hp) as H2. apply in_combine_l in Hp. apply un_div; [apply un_add; [apply un_add|apply un_mul; [exact (un_lit 2 1 ltac:(easy))|]]; auto|exact (un_lit 4 1 ltac:(easy))].
  Qed.
  Theorem bw_mfi_f64_unsigned (high low volume : list f64) : ups high -> ups volume -> (forall h l, In (h, l) (combine high low) -> Bltb h l = false) -> ups (@bw_mfi f64 (B64 m) high low volume).
  Proof.
    intros Hh Hv L. apply ups_map. intros [[h l] v] Hp. unfold zip3 in Hp. pose proof (in_combine_r _ _ _ _ Hp) as H3. apply in_combine_l in Hp. apply un_mul; [|exact (un_lit 1000000 1 ltac:(easy))]. apply un_div; [|auto]. apply un_sub; [apply Hh; eapply in_combine_l, Hp|now apply L].
  Qed.
  Theorem pvi_f64_unsigned (data volume : list f64) : ups data -> ups (@pvi f64 (B64 m) data volume).
  Proof.
    intros H. apply ups_cons; [now left|]. intros x Hx. revert x Hx. apply (un_scan _ unsigned); [exact (un_lit 100 1 ltac:(easy))|]. intros s [v q] Hp Hs. unfold vi_step. apply in_combine_l in Hp. pose proof (ups_window 2 data v H Hp) as U.
    destruct (fgtb (at_ q 1) (at_ q 0)); cbn [fst snd]; [|easy]. assert (G : unsigned (@fmul f64 (B64 m) s (fdiv (at_ v 1) (at_ v 0)))) by (apply un_mul; [easy|]; apply un_div; now apply un_at). easy.
  Qed.
  Theorem nvi_f64_unsigned (data volume : list f64) : ups data -> ups (@nvi f64 (B64 m) data volume).
  Proof.
    intros H. apply ups_cons; [now left|]. intros x Hx. revert x Hx. apply (un_scan _ unsigned); [exact (un_lit 100 1 ltac:(easy))|]. intros s [v q] Hp Hs. unfold vi_step. apply in_combine_l in Hp. pose proof (ups_window 2 data v H Hp) as U.
    destruct (fltb (at_ q 1) (at_ q 0)); cbn [fst snd]; [|easy]. assert (G : unsigned (@fmul f64 (B64 m) s (fdiv (at_ v 1) (at_ v 0)))) by (apply un_mul; [easy|]; apply un_div; now apply un_at). easy.
  Qed.
  Theorem hv_f64_unsigned (data : list f64) w d o : (forall x, d = Some x -> unsigned x) -> @hv f64 (B64 m) data w d = Ok o -> ups o.
  Proof.
    intros H E. unfold hv in E. inv E. apply ups_pad, ups_map. intros v Hv. unfold hv_win. apply un_sqrt, un_div; [|apply un_nat]. apply un_mul.
    - apply un_sum; [|apply ups_map; intros; apply un_sq]. pose proof (window_full w _ v ltac:(lia) Hv). now destruct v.
    - apply un_mul; [exact (un_lit 252 1 ltac:(easy))|]. destruct d as [x|]; cbn [unwrap_or]; [now apply H|now right].
  Qed.
  Theorem cc_hv_f64_unsigned (data : list f64) w o : @cc_hv f64 (B64 m) data w = Ok o -> ups o.
  Proof.
    intros E. unfold cc_hv in E. inv E. apply ups_pad, ups_map. intros v Hv. unfold annual_win. apply un_sqrt, un_div; [|apply un_nat]. apply un_mul; [|exact (un_lit 252 1 ltac:(easy))].
    apply un_sum; [apply (window_full w _ v ltac:(lia) Hv)|]. eapply ups_window; [|exact Hv]. apply ups_map. intros; apply un_sq.
  Qed.
  Theorem ulcer_f64_unsigned (data : list f64) w o : @ulcer f64 (B64 m) data w = Ok o -> ups o.
  Proof.
    intros E. unfold ulcer in E. inv E. apply ups_pad, ups_map. intros x Hx. apply un_sqrt. revert x Hx. match goal with E2 : sma _ w = Ok _ |- _ => apply (sma_f64_unsigned m _ _ _ E2) end. apply ups_map. intros [h c] _. apply un_sq.
  Qed.
  (** Bounded below by zero only up to the sign of zero. *)
  Theorem gkyz_hv_f64_nonneg (o h l c : list f64) w r : @gkyz_hv f64 (B64 m) o h l c w = Ok r -> forall x, In x r -> nn x.
  Proof. intros E x Hx. unfold gkyz_hv in E. inv E. apply in_app_iff in Hx as [Hx|Hx]; [apply in_pad in Hx; now subst|]. apply in_map_iff in Hx as (v & <- & _). apply nn_sqrt. Qed.
End Measures.

(** ** Averages that extrapolate print negative numbers for positive prices *)
Definition priced (data : list f64) : Prop := Forall (fun x => Bltb (int 0) x = true) data.
Ltac crash m i := exists i; match goal with |- exists x : f64, priced ?d /\ prints ?r ?j x /\ ?p => assert (K : priced d) by (repeat constructor; vm_compute; reflexivity); assert (H : exists x, prints r j x /\ Bltb x (int 0) = true) by seen m; destruct H as (x & H1 & H2); exists x; exact (conj K (conj H1 H2)) end.
Definition crash_data : list f64 := [int 1000; int 1000; int 1000; int 1000; int 1000; int 1000; int 1; int 1; int 1; int 1; int 1; int 1].
Theorem dema_f64_negative m : exists i x, priced crash_data /\ prints (@dema f64 (B64 m) crash_data 3) i x /\ Bltb x (int 0) = true.
Proof. crash m 8%nat. Qed.
Theorem tema_f64_negative m : exists i x, priced crash_data /\ prints (@tema f64 (B64 m) crash_data 3) i x /\ Bltb x (int 0) = true.
Proof. crash m 7%nat. Qed.
Theorem hull_f64_negative m : exists i x, priced crash_data /\ prints (@hull f64 (B64 m) crash_data 4) i x /\ Bltb x (int 0) = true.
Proof. crash m 7%nat. Qed.
Theorem zlma_f64_negative m : exists i x, priced (int 1000 :: crash_data) /\ prints (@zlma f64 (B64 m) (int 1000 :: crash_data) 5) i x /\ Bltb x (int 0) = true.
Proof. crash m 8%nat. Qed.
Theorem lrf_f64_negative m : exists i x, priced crash_data /\ prints (@lrf f64 (B64 m) crash_data 4) i x /\ Bltb x (int 0) = true.
Proof. crash m 7%nat. Qed.
Theorem t3_f64_negative m : exists i x, priced crash_data /\ prints (@t3 f64 (B64 m) crash_data 2 None) i x /\ Bltb x (int 0) = true.
Proof. crash m 8%nat. Qed.
Theorem hwma_f64_negative m : exists i x, priced crash_data /\ prints (@hwma f64 (B64 m) crash_data (Some (int 1)) None None) i x /\ Bltb x (int 0) = true.
Proof. crash m 6%nat. Qed.
Theorem mdma_f64_negative m : exists i x, priced crash_data /\ prints (@mdma f64 (B64 m) crash_data 3) i x /\ Bltb x (int 0) = true.
Proof. crash m 6%nat. Qed.

(** Cases: the hypotheses hold and the results are numbers. *)
Definition some_number (r : result (list f64)) (i : nat) : bool := match r with Ok o => match nth_error o i with Some x => is_finite x | None => false end | Panic => false end.
Lemma priced_ups l : priced l -> ups l.
Proof. intros H x Hx. unfold priced in H. rewrite Forall_forall in H. specialize (H x Hx). right. now destruct x as [[]|[]| |[]]. Qed.
Example averages_unsigned_case m : ups crash_data /\ some_number (@sma f64 (B64 m) crash_data 3) 7 = true /\ some_number (@ewma f64 (B64 m) crash_data 3) 7 = true /\ some_number (@wma f64 (B64 m) crash_data 3) 7 = true /\ some_number (@pwma f64 (B64 m) crash_data 3) 7 = true /\ some_number (@fwma f64 (B64 m) crash_data 3) 7 = true /\ some_number (@trima f64 (B64 m) crash_data 3) 7 = true /\ some_number (@wilder f64 (B64 m) crash_data 3) 7 = true.
Proof. split; [apply priced_ups; repeat constructor; vm_compute; reflexivity|]. destruct m as [? ? ? ? ? ? ? []]; repeat split; vm_compute; reflexivity. Qed.
Definition mass_high : list f64 := [int 2; int 4; int 5; int 7].
Definition mass_low : list f64 := [int 1; int 2; int 4; int 4].
Example mass_unsigned_case m : ups mass_high /\ (forall h l, In (h, l) (combine mass_high mass_low) -> Bltb h l = false) /\ some_number (@mass f64 (B64 m) mass_high mass_low 2 1) 2 = true.
Proof.
  split; [apply priced_ups; repeat constructor; vm_compute; reflexivity|]. split; [|destruct m as [? ? ? ? ? ? ? []]; vm_compute; reflexivity].
  unfold mass_high, mass_low. cbn [combine]. intros h l [E|[E|[E|[E|[]]]]]; injection E as <- <-; vm_compute; reflexivity.
Qed.
Example exp_unsigned_case : exists m, exp_unsigned m.
Proof. exists {| lm_ln := fun x => x; lm_exp := Babs; lm_log2 := fun x => x; lm_log10 := fun x => x; lm_cos := fun x => x; lm_atan := fun x => x; lm_pow := fun x _ => x; lm_negsum0 := false |}. intros x. apply un_abs. Qed.
