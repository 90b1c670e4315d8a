(** * MirRel: every function run on prices and on their mirror image. *)

From Coq Require Import Lia.
From Verif Require Shift.
From Verif Require Import Base BaseFacts Num Scale Mirror.
From Verif Require Import Distribution Regression Smooth Correlation Volatility Volume Trend Momentum.
Local Unset Implicit Arguments.

(** How the values of the two runs are related: exactly opposite, opposite up to
    the sign of a zero, equal up to the sign of a zero, equal. *)
Inductive kind := N | O | Z | E.

Section Ops.
  Context {F : Type} {FO : FOps F} {FS : FSym F}.
  Local Open Scope F_scope.
  Definition sm (k : kind) (x y : F) : Prop :=
    match k with N => y = fneg x | O => eqv y (fneg x) | Z => eqv y x | E => y = x end.
  Lemma w_no x y : sm N x y -> sm O x y. Proof. intros ->. apply eqv_refl. Qed.
  Lemma w_ez x y : sm E x y -> sm Z x y. Proof. intros ->. apply eqv_refl. Qed.
  Lemma m_e x : sm E x x. Proof. reflexivity. Qed.
  Lemma m_z x : sm Z x x. Proof. apply eqv_refl. Qed.
  Lemma m_nan k : sm k fnan fnan.
  Proof. destruct k; cbn; rewrite ?neg_fnan; try reflexivity; apply eqv_refl. Qed.
  Lemma m_0 : sm O #0 #0. Proof. apply eqv_sym, neg_zero. Qed.
  Lemma m_sum0 : sm O fsum0 fsum0.
  Proof. cbn. apply (eqv_trans _ #0); [apply sum0_zero|]. apply (eqv_trans _ (- #0)); [apply eqv_sym, neg_zero|]. apply eqv_neg, eqv_sym, sum0_zero. Qed.
  Lemma eqv_add_r a b b' : eqv b b' -> eqv (a + b) (a + b').
  Proof. intros. rewrite (add_comm a b), (add_comm a b'). now apply eqv_add. Qed.
  Lemma eqv_add2 a a' b b' : eqv a a' -> eqv b b' -> eqv (a + b) (a' + b').
  Proof. intros. apply (eqv_trans _ (a' + b)); [now apply eqv_add|now apply eqv_add_r]. Qed.
  Lemma eqv_mul2 a a' b b' : eqv a a' -> eqv b b' -> eqv (a * b) (a' * b').
  Proof. intros. apply (eqv_trans _ (a' * b)); [now apply eqv_mul|]. rewrite (mul_comm a' b), (mul_comm a' b'). now apply eqv_mul. Qed.
  Lemma a_o a a' b b' : sm O a a' -> sm O b b' -> sm O (a + b) (a' + b').
  Proof. cbn. intros. eapply eqv_trans; [apply eqv_add2; eassumption|]. apply neg_add. Qed.
  Lemma a_z a a' b b' : sm Z a a' -> sm Z b b' -> sm Z (a + b) (a' + b').
  Proof. cbn. intros. now apply eqv_add2. Qed.
  Lemma a_e a a' b b' : sm E a a' -> sm E b b' -> sm E (a + b) (a' + b').
  Proof. cbn. now intros -> ->. Qed.
  (** exchanged summands *)
  Lemma a_x a a' b b' : sm E a b' -> sm E b a' -> sm E (a + b) (a' + b').
  Proof. cbn. intros -> ->. apply add_comm. Qed.
  Lemma n_o a a' : sm O a a' -> sm O (- a) (- a').
  Proof. cbn. apply eqv_neg. Qed.
  Lemma n_z a a' : sm Z a a' -> sm Z (- a) (- a').
  Proof. cbn. apply eqv_neg. Qed.
  Lemma s_o a a' b b' : sm O a a' -> sm O b b' -> sm O (a - b) (a' - b').
  Proof. intros. rewrite !sub_add. apply a_o; [easy|]. now apply n_o. Qed.
  Lemma s_z a a' b b' : sm Z a a' -> sm Z b b' -> sm Z (a - b) (a' - b').
  Proof. intros. rewrite !sub_add. apply a_z; [easy|]. now apply n_z. Qed.
  Lemma s_e a a' b b' : sm E a a' -> sm E b b' -> sm E (a - b) (a' - b').
  Proof. cbn. now intros -> ->. Qed.
  (** a range: high minus low *)
  Lemma s_x a a' b b' : sm N a b' -> sm N b a' -> sm E (a - b) (a' - b').
  Proof. cbn. intros -> ->. rewrite !sub_add, neg_neg. apply add_comm. Qed.
  (** a swapped difference of equal terms *)
  Lemma s_swap a a' b b' : sm E a b' -> sm E b a' -> sm O (a - b) (a' - b').
  Proof.
    cbn. intros -> ->. rewrite !sub_add. eapply eqv_trans; [|apply neg_add]. rewrite neg_neg, add_comm. apply eqv_refl.
  Qed.
  Lemma s_swapz a a' b b' : sm Z a b' -> sm Z b a' -> sm O (a - b) (a' - b').
  Proof.
    cbn. intros A B. rewrite !sub_add. eapply eqv_trans; [|apply neg_add]. rewrite neg_neg, add_comm. apply eqv_add2; [now apply eqv_neg|easy].
  Qed.
  Lemma s_xz a a' b b' : sm O a b' -> sm O b a' -> sm Z (a - b) (a' - b').
  Proof.
    cbn. intros A B. rewrite !sub_add, (add_comm a'). apply eqv_add2; [|easy]. eapply eqv_trans; [apply eqv_neg; exact A|]. rewrite neg_neg. apply eqv_refl.
  Qed.
  Lemma mul_neg a b : a * (- b) = - (a * b).
  Proof. rewrite mul_comm, neg_mul. now rewrite mul_comm. Qed.
  Lemma m_oe a a' b b' : sm O a a' -> sm Z b b' -> sm O (a * b) (a' * b').
  Proof. cbn. intros. rewrite <- neg_mul. now apply eqv_mul2. Qed.
  Lemma m_eo a a' b b' : sm Z a a' -> sm O b b' -> sm O (a * b) (a' * b').
  Proof. intros. rewrite (mul_comm a), (mul_comm a'). now apply m_oe. Qed.
  Lemma m_ne a a' b b' : sm N a a' -> sm E b b' -> sm N (a * b) (a' * b').
  Proof. cbn. intros -> ->. apply neg_mul. Qed.
  Lemma m_en a a' b b' : sm E a a' -> sm N b b' -> sm N (a * b) (a' * b').
  Proof. intros. rewrite (mul_comm a), (mul_comm a'). now apply m_ne. Qed.
  Lemma m_ee a a' b b' : sm E a a' -> sm E b b' -> sm E (a * b) (a' * b').
  Proof. cbn. now intros -> ->. Qed.
  Lemma m_nn a a' b b' : sm N a a' -> sm N b b' -> sm E (a * b) (a' * b').
  Proof. cbn. intros -> ->. now rewrite neg_mul, mul_neg, neg_neg. Qed.
  Lemma m_zz a a' b b' : sm Z a a' -> sm Z b b' -> sm Z (a * b) (a' * b').
  Proof. cbn. apply eqv_mul2. Qed.
  Lemma m_oo a a' b b' : sm O a a' -> sm O b b' -> sm Z (a * b) (a' * b').
  Proof. cbn. intros. replace (a * b) with ((- a) * (- b)); [now apply eqv_mul2|]. now rewrite neg_mul, mul_neg, neg_neg. Qed.
  Lemma m_sq a a' : sm O a a' -> sm E (a * a) (a' * a').
  Proof. cbn. intros H. rewrite (eqv_sq _ _ H). now rewrite neg_mul, mul_neg, neg_neg. Qed.
  Lemma m_sqz a a' : sm Z a a' -> sm E (a * a) (a' * a').
  Proof. cbn. apply eqv_sq. Qed.
  Lemma d_o a a' b b' : sm O a a' -> sm E b b' -> sm O (a / b) (a' / b').
  Proof. cbn. intros H ->. rewrite <- neg_div. now apply eqv_div. Qed.
  Lemma d_n a a' b b' : sm N a a' -> sm E b b' -> sm N (a / b) (a' / b').
  Proof. cbn. intros -> ->. apply neg_div. Qed.
  Lemma d_z a a' b b' : sm Z a a' -> sm E b b' -> sm Z (a / b) (a' / b').
  Proof. cbn. intros H ->. now apply eqv_div. Qed.
  Lemma d_e a a' b b' : sm E a a' -> sm E b b' -> sm E (a / b) (a' / b').
  Proof. cbn. now intros -> ->. Qed.
  Lemma b_o a a' : sm O a a' -> sm E (fabs a) (fabs a').
  Proof. cbn. intros H. now rewrite (eqv_abs _ _ H), abs_neg. Qed.
  Lemma b_z a a' : sm Z a a' -> sm E (fabs a) (fabs a').
  Proof. cbn. apply eqv_abs. Qed.
  Lemma f_e (f : F -> F) a a' : sm E a a' -> sm E (f a) (f a').
  Proof. cbn. now intros ->. Qed.
  Lemma nan_o a a' : sm O a a' -> fisnan a' = fisnan a.
  Proof. cbn. intros H. rewrite (eqv_isnan _ _ H). apply neg_isnan. Qed.
  Lemma nan_z a a' : sm Z a a' -> fisnan a' = fisnan a.
  Proof. cbn. apply eqv_isnan. Qed.
  Lemma lt_o a a' b b' : sm O a a' -> sm O b b' -> fltb a' b' = fltb b a.
  Proof. cbn. intros A B. rewrite (eqv_ltb _ _ _ _ A B). apply neg_ltb. Qed.
  Lemma le_o a a' b b' : sm O a a' -> sm O b b' -> fleb a' b' = fleb b a.
  Proof. cbn. intros A B. rewrite (eqv_leb _ _ _ _ A B). apply neg_leb. Qed.
  Lemma eq_o a a' b b' : sm O a a' -> sm O b b' -> feqb a' b' = feqb a b.
  Proof. cbn. intros A B. rewrite (eqv_eqb _ _ _ _ A B). apply neg_eqb. Qed.
  Lemma lt_z a a' b b' : sm Z a a' -> sm Z b b' -> fltb a' b' = fltb a b.
  Proof. cbn. apply eqv_ltb. Qed.
  Lemma le_z a a' b b' : sm Z a a' -> sm Z b b' -> fleb a' b' = fleb a b.
  Proof. cbn. apply eqv_leb. Qed.
  Lemma eq_z a a' b b' : sm Z a a' -> sm Z b b' -> feqb a' b' = feqb a b.
  Proof. cbn. apply eqv_eqb. Qed.
  (** the lower of two prices mirrors the higher *)
  Lemma min_max k a a' b b' : k = N \/ k = O -> sm k a a' -> sm k b b' -> sm k (fmin a b) (fmax a' b').
  Proof.
    intros K A B. assert (A' : sm O a a') by (destruct K; subst; [now apply w_no|easy]). assert (B' : sm O b b') by (destruct K; subst; [now apply w_no|easy]).
    unfold fmin, fmax. rewrite (nan_o a a'), (nan_o b b'), (lt_o a a' b b') by assumption.
    destruct (fisnan a), (fisnan b), (fltb b a); assumption.
  Qed.
  Lemma max_min k a a' b b' : k = N \/ k = O -> sm k a a' -> sm k b b' -> sm k (fmax a b) (fmin a' b').
  Proof.
    intros K A B. assert (A' : sm O a a') by (destruct K; subst; [now apply w_no|easy]). assert (B' : sm O b b') by (destruct K; subst; [now apply w_no|easy]).
    unfold fmin, fmax. rewrite (nan_o a a'), (nan_o b b'), (lt_o b b' a a') by assumption.
    destruct (fisnan a), (fisnan b), (fltb a b); assumption.
  Qed.
  Lemma max_e a a' b b' : sm E a a' -> sm E b b' -> sm E (fmax a b) (fmax a' b').
  Proof. cbn. now intros -> ->. Qed.
  Lemma min_e a a' b b' : sm E a a' -> sm E b b' -> sm E (fmin a b) (fmin a' b').
  Proof. cbn. now intros -> ->. Qed.
  (** the positive part forgets the sign of a zero *)
  Lemma pos_e a a' : sm Z a a' -> sm E (fmax #0 a) (fmax #0 a').
  Proof.
    cbn. intros H. unfold fmax. rewrite zero_num, (nan_z a a' H), (eqv_ltb #0 #0 a' a (eqv_refl _) H). destruct (fisnan a); [easy|].
    destruct (fltb #0 a) eqn:L; [|easy]. symmetry. apply eqv_pos; [now apply eqv_sym|exact L].
  Qed.
  Lemma m_at k l l' i : Forall2 (sm k) l l' -> sm k (at_ l i) (at_ l' i).
  Proof. intros H. apply (f2_nth (sm k)); [exact H|apply m_nan]. Qed.
  Lemma m_last k l l' : Forall2 (sm k) l l' -> sm k (last_ l) (last_ l').
  Proof. intros H. unfold last_. rewrite (f2_length _ _ _ H). apply (f2_nth (sm k)); [exact H|apply m_nan]. Qed.
  Lemma f2_eq l l' : Forall2 (sm E) l l' -> l' = l.
  Proof. intros H. induction H as [|x y ? ? Hx]; [easy|]. cbn in Hx. now subst. Qed.
  Lemma f2e_refl l : Forall2 (sm E) l l.
  Proof. induction l; constructor; [reflexivity|easy]. Qed.
  Lemma f2_no l l' : Forall2 (sm N) l l' -> Forall2 (sm O) l l'.
  Proof. intros H. induction H; constructor; auto. now apply w_no. Qed.
  Lemma m_fsum l l' : Forall2 (sm O) l l' -> sm O (fsum l) (fsum l').
  Proof. intros H. unfold fsum. eapply (f2_fold (sm O) (sm O)); [exact H|apply m_sum0|]. intros. now apply a_o. Qed.
  Lemma m_maxof k l l' : k = N \/ k = O -> Forall2 (sm k) l l' -> sm k (max_of l) (min_of l').
  Proof. intros K H. unfold max_of, min_of. eapply (f2_fold (sm k) (sm k)); [exact H|apply m_nan|]. intros. now apply max_min. Qed.
  Lemma m_minof k l l' : k = N \/ k = O -> Forall2 (sm k) l l' -> sm k (min_of l) (max_of l').
  Proof. intros K H. unfold max_of, min_of. eapply (f2_fold (sm k) (sm k)); [exact H|apply m_nan|]. intros. now apply min_max. Qed.
  (** exchanged summands and a half-width added on one side, taken off on the other *)
  Lemma a_ox a a' b b' : sm O a b' -> sm O b a' -> sm O (a + b) (a' + b').
  Proof. intros. rewrite (add_comm a'). now apply a_o. Qed.
  Lemma as_o a a' b b' : sm O a a' -> sm Z b b' -> sm O (a + b) (a' - b').
  Proof. intros. rewrite sub_add. apply a_o; [easy|]. cbn in *. now apply eqv_neg. Qed.
  Lemma sa_o a a' b b' : sm O a a' -> sm Z b b' -> sm O (a - b) (a' + b').
  Proof. intros. rewrite sub_add. apply a_o; [easy|]. cbn in *. rewrite neg_neg. easy. Qed.
  Lemma max_last a b c : fmax (fmax a (fabs b)) (fabs c) = fmax (fmax a (fabs c)) (fabs b).
  Proof.
    unfold fmax.
    destruct (fisnan a) eqn:A, (fisnan (fabs b)) eqn:B, (fisnan (fabs c)) eqn:C; rewrite ?A, ?B, ?C; try easy.
    1: now rewrite (nan_eq _ B), (nan_eq _ C).
    all: destruct (fltb (fabs b) (fabs c)) eqn:P, (fltb (fabs c) (fabs b)) eqn:Q.
    all: try (rewrite (ltb_asym _ _ P) in Q; discriminate).
    all: rewrite ?B, ?C; try easy; try (now apply abs_tie).
    all: destruct (fltb a (fabs b)) eqn:R, (fltb a (fabs c)) eqn:S; rewrite ?A, ?B, ?C, ?P, ?Q, ?R, ?S; try easy.
    all: try (now apply abs_tie).
    - rewrite (nlt_trans (fabs b) a (fabs c) A (ltb_asym _ _ R) S) in P. discriminate.
    - rewrite (nlt_trans (fabs c) a (fabs b) A (ltb_asym _ _ S) R) in Q. discriminate.
  Qed.
  Lemma max_abs a b : fmax (fabs a) (fabs b) = fmax (fabs b) (fabs a).
  Proof.
    unfold fmax. destruct (fisnan (fabs a)) eqn:A, (fisnan (fabs b)) eqn:B; try easy.
    - now rewrite (nan_eq _ B), (nan_eq _ A).
    - destruct (fltb (fabs a) (fabs b)) eqn:P, (fltb (fabs b) (fabs a)) eqn:Q; try easy.
      + rewrite (ltb_asym _ _ P) in Q. discriminate.
      + now apply abs_tie.
  Qed.
End Ops.

(** the two columns of highs and lows change places *)
Definition xrel {A A' B B'} (R : B -> A' -> Prop) (S : A -> B' -> Prop) (x : A * B) (y : A' * B') : Prop :=
  R (snd x) (fst y) /\ S (fst x) (snd y).
Lemma f2_xcombine {A A' B B'} (R : B -> A' -> Prop) (S : A -> B' -> Prop) h l h' l' :
  Forall2 R l h' -> Forall2 S h l' -> Forall2 (xrel R S) (combine h l) (combine h' l').
Proof. intros H. revert h l'. induction H; intros h l'' K; inversion K; subst; cbn; constructor; auto. now split. Qed.
Definition x23 {A A' B B' C C'} (R : A -> A' -> Prop) (S : C -> B' -> Prop) (T : B -> C' -> Prop) (x : A * B * C) (y : A' * B' * C') : Prop :=
  R (fst (fst x)) (fst (fst y)) /\ S (snd x) (snd (fst y)) /\ T (snd (fst x)) (snd y).
Lemma f2_x23 {A A' B B' C C'} (R : A -> A' -> Prop) (S : C -> B' -> Prop) (T : B -> C' -> Prop) o h l o' h' l' :
  Forall2 R o o' -> Forall2 S l h' -> Forall2 T h l' -> Forall2 (x23 R S T) (combine (combine o h) l) (combine (combine o' h') l').
Proof.
  intros H. revert h l h' l'. induction H; intros h l0 h' l0' K L; [constructor|].
  inversion K; subst; inversion L; subst; cbn; constructor; auto. repeat split; easy.
Qed.
Lemma r_bind2 {A B A' B' C C'} (R : A -> B' -> Prop) (S : B -> A' -> Prop) (T : C -> C' -> Prop) (m1 : result A) (m2 : result B) (m1' : result A') (m2' : result B') k k' :
  rrel S m2 m1' -> rrel R m1 m2' -> (forall a b a' b', S b a' -> R a b' -> rrel T (k a b) (k' a' b')) ->
  rrel T (bind m1 (fun a => bind m2 (k a))) (bind m1' (fun a => bind m2' (k' a))).
Proof. intros H K L. destruct m1, m2, m1', m2'; cbn in *; try easy. now apply L. Qed.
Ltac brk := repeat match goal with
  | H : prel _ _ ?x ?y |- _ => destruct x, y; destruct H; cbn [fst snd] in *
  | H : x23 _ _ _ ?x ?y |- _ => destruct x as [[? ?] ?], y as [[? ?] ?]; destruct H as (? & ? & ?); cbn [fst snd] in *
  | H : xrel _ _ ?x ?y |- _ => destruct x, y; destruct H; cbn [fst snd] in *
  | H : sm E ?a ?b |- _ => cbn in H; subst
  | H : Forall2 (sm E) ?a ?b |- _ => apply f2_eq in H; subst
  | H : Forall2 eq ?a ?b |- _ => apply Shift.f2_eq_eq in H; subst
  | H : ?a = ?b |- _ => is_var a; is_var b; subst
  end.
Ltac lens := repeat match goal with
  | |- context [length (map _ _)] => rewrite map_length
  | |- context [length (skipn _ _)] => rewrite skipn_length
  | H : Forall2 _ ?a ?a' |- context [length ?a'] =>
      tryif constr_eq a a' then fail else rewrite (f2_length _ _ _ H)
  end.
(** relations between single values *)
Ltac hk0 := fail. Ltac hk1 := fail. Ltac hk2 := fail.
Ltac ar :=
  cbv beta zeta; cbn [fst snd];
  match goal with
  | H : sm ?k ?a ?b |- sm ?k ?a ?b => exact H
  | H : sm N ?a ?b |- sm O ?a ?b => apply w_no; exact H
  | |- sm E ?x ?x => apply m_e
  | |- sm Z ?x ?x => apply m_z
  | |- sm _ fnan fnan => apply m_nan
  | |- sm O (flit 0 1) (flit 0 1) => apply m_0
  | |- sm O fsum0 fsum0 => apply m_sum0
  | |- sm ?k _ _ => is_evar k; first
      [ (unify k E; solve [ar]) | (unify k N; solve [ar]) | (unify k O; solve [ar]) | (unify k Z; solve [ar]) ]
  | |- sm O (fadd _ _) (fsub _ _) => apply as_o; ar
  | |- sm O (fsub _ _) (fadd _ _) => apply sa_o; ar
  | |- sm O (fadd _ _) _ => first [(apply a_o; solve [ar]) | (apply a_ox; solve [ar])]
  | |- sm E (fadd _ _) _ => first [(apply a_e; solve [ar]) | (apply a_x; solve [ar])]
  | |- sm Z (fadd _ _) _ => first [(apply w_ez; solve [ar]) | (apply a_z; ar)]
  | |- sm O (fsub _ _) _ => first [(apply s_o; solve [ar]) | (apply s_swap; solve [ar]) | (apply s_swapz; solve [ar])]
  | |- sm E (fsub _ _) _ => first [(apply s_e; solve [ar]) | (apply s_x; solve [ar])]
  | |- sm Z (fsub _ _) _ => first [(apply w_ez; solve [ar]) | (apply s_z; solve [ar]) | (apply s_xz; solve [ar])]
  | |- sm N (fmul _ _) _ => first [(apply m_ne; solve [ar]) | (apply m_en; solve [ar])]
  | |- sm O (fmul _ _) _ => first [(apply m_oe; solve [ar]) | (apply m_eo; solve [ar])]
  | |- sm E (fmul _ _) _ => first [(apply m_ee; solve [ar]) | (apply m_nn; solve [ar]) | (apply m_sq; solve [ar]) | (apply m_sqz; solve [ar])]
  | |- sm Z (fmul _ _) _ => first [(apply w_ez; solve [ar]) | (apply m_zz; solve [ar]) | (apply m_oo; solve [ar])]
  | |- sm N (fdiv _ _) _ => apply d_n; ar
  | |- sm O (fdiv _ _) _ => apply d_o; ar
  | |- sm E (fdiv _ _) _ => apply d_e; ar
  | |- sm Z (fdiv _ _) _ => first [(apply w_ez; solve [ar]) | (apply d_z; solve [ar])]
  | |- sm O (fneg _) _ => apply n_o; ar
  | |- sm E (fabs _) _ => first [(apply f_e; solve [ar]) | (apply b_o; solve [ar]) | (apply b_z; solve [ar])]
  | |- sm E (fmax (flit 0 1) _) (fmax (flit 0 1) _) => first [(apply max_e; solve [ar]) | (apply pos_e; solve [ar])]
  | |- sm E (fmax _ _) (fmax _ _) => apply max_e; ar
  | |- sm E (fmin _ _) (fmin _ _) => apply min_e; ar
  | |- sm N (fmax _ _) (fmin _ _) => apply max_min; [now left| |]; ar
  | |- sm N (fmin _ _) (fmax _ _) => apply min_max; [now left| |]; ar
  | |- sm O (fmax _ _) (fmin _ _) => apply max_min; [now right| |]; ar
  | |- sm O (fmin _ _) (fmax _ _) => apply min_max; [now right| |]; ar
  | |- sm E (fsqrt _) _ => apply f_e; ar
  | |- sm E (fln _) _ => apply f_e; ar
  | |- sm _ (powi2 _) _ => unfold powi2; ar
  | |- sm _ (powi3 _) _ => unfold powi3; ar
  | |- sm _ (powi4 _) _ => unfold powi4; ar
  | |- sm ?k (at_ _ _) _ => first [(apply m_at; solve [ls]) | (match k with O => apply w_no | Z => apply w_ez end; ar)]
  | |- sm ?k (last_ _) _ => first [(apply m_last; solve [ls]) | (match k with O => apply w_no | Z => apply w_ez end; ar)]
  | |- sm O (fsum _) _ => apply m_fsum; ls
  | |- sm ?k (max_of _) (min_of _) => first [(apply m_maxof; [first [now left|now right]|solve [ls]]) | (match k with O => apply w_no end; ar)]
  | |- sm ?k (min_of _) (max_of _) => first [(apply m_minof; [first [now left|now right]|solve [ls]]) | (match k with O => apply w_no end; ar)]
  | |- sm E (fsum ?l) (fsum ?m) => let H := fresh in assert (H : Forall2 (sm E) l m) by ls; apply f2_eq in H; rewrite H; apply m_e
  | |- sm _ (if ?b then _ else _) (if ?b then _ else _) => destruct b; ar
  | |- sm ?k _ _ => first [hk0 | hk1 | hk2 | (match k with O => apply w_no | Z => apply w_ez end; ar)]
  end
with ls :=
  lazymatch goal with
  | |- Forall2 _ _ _ =>
    first [ eassumption
    | match goal with
      | H : Forall2 (sm N) ?a ?b |- Forall2 (sm O) ?a ?b => apply f2_no; exact H
      | |- Forall2 (sm E) ?x ?x => apply f2e_refl
      | |- Forall2 ?R ?x ?x => is_evar R; match type of x with list ?T => unify R (@eq T) end; apply f2_refl
      | |- Forall2 eq ?x ?x => apply f2_refl
      | |- Forall2 _ (_ ++ _) _ => eapply f2_app; ls
      | |- Forall2 _ (_ :: _) _ => constructor; [pr|ls]
      | |- Forall2 _ [] [] => constructor
      | |- Forall2 _ (pad _ _) _ => apply f2_repeat; pr
      | |- Forall2 _ (repeat _ _) _ => apply f2_repeat; pr
      | |- Forall2 _ (map _ _) _ => eapply f2_map; [ls | intros ? ? ?; brk; pr]
      | |- Forall2 _ (zip3 _ _ _) _ => unfold zip3; ls
      | |- Forall2 _ (zip4 _ _ _ _) _ => unfold zip4; ls
      | |- Forall2 _ (zip5 _ _ _ _ _) _ => unfold zip5; ls
      | |- Forall2 _ (zip6 _ _ _ _ _ _) _ => unfold zip6; ls
      | |- Forall2 _ (combine _ _) _ => first [(eapply f2_combine; solve [ls]) | (eapply f2_xcombine; solve [ls]) | (eapply f2_x23; solve [ls])]
      | |- Forall2 _ (skipn _ _) _ => eapply f2_skipn; ls
      | |- Forall2 _ (firstn _ _) _ => eapply f2_firstn; ls
      | |- Forall2 _ (rev _) _ => eapply f2_rev; ls
      | |- Forall2 _ (windows _ _) _ => eapply f2_windows; ls
      end ]
  end
with pr :=
  cbv beta zeta; cbn [fst snd];
  match goal with
  | |- prel _ _ (_, _) (_, _) => split; cbn [fst snd]; pr
  | |- ?R ?a ?a => is_evar R; match type of a with ?T => unify R (@eq T) end; reflexivity
  | |- ?x = ?x => reflexivity
  | |- sm _ _ _ => ar
  | |- ?R (_, _) _ => is_evar R; let S := open_constr:(prel _ _) in unify R S; pr
  | |- ?R _ _ => is_evar R; let S := open_constr:(sm _) in unify R S; ar
  end.
Ltac rr :=
  repeat (cbv beta zeta; brk; match goal with
  | |- rrel _ (bind (usub ?a ?b) _) (bind (usub ?a ?b) _) => eapply r_bind; [apply r_refl|intros ? ? <-]
  | |- rrel _ (bind ?x _) (bind ?x _) => eapply r_bind; [apply r_refl|intros ? ? <-]
  | |- rrel _ (bind (slice_from _ _) _) _ => eapply r_bind; [eapply r_slice_from; ls|intros ? ? ?]
  | |- rrel _ (bind (slice_to _ _) _) _ => eapply r_bind; [eapply r_slice_to; ls|intros ? ? ?]
  | |- rrel _ (bind (slice _ _ _) _) _ => eapply r_bind; [eapply r_slice; ls|intros ? ? ?]
  | |- rrel _ (bind (rwindows _ _) _) _ => eapply r_bind; [eapply r_rwindows; ls|intros ? ? ?]
  | |- rrel _ (if ?b then _ else _) (if ?b then _ else _) => destruct b
  | |- rrel _ (Ok _) (Ok _) => apply r_ok
  | |- rrel _ Panic Panic => exact I
  | |- Forall2 _ _ _ => solve [ls]
  | |- sm _ _ _ => solve [ar]
  end).
Tactic Notation "sw" uconstr(L) := eapply r_bind2; [eapply L; ls | eapply L; ls | intros ? ? ? ? ? ?].
Tactic Notation "call" uconstr(L) := eapply r_bind; [eapply L; ls | intros ? ? ?].

Section Rel.
  Context {F : Type} {FO : FOps F} {FS : FSym F}.
  Local Notation ss k := (Forall2 (sm k)).
  Local Open Scope F_scope.

  Lemma m_dot ws l l' : ss O l l' -> sm O (dot ws l) (dot ws l').
  Proof. intros H. unfold dot. ar. Qed.
  Lemma sma_mi l l' w : ss O l l' -> rrel (ss O) (sma l w) (sma l' w).
  Proof. intros. unfold sma, sma_win. rr. Qed.
  Lemma ewma_mi l l' w : ss O l l' -> rrel (ss O) (ewma l w) (ewma l' w).
  Proof.
    intros. unfold ewma. rr. apply f2_app; [|ls]. constructor; [ar|]. eapply (f2_scan (sm O) (sm O) (sm O)); [ls|ar|].
    intros. unfold ewma_step. split; ar.
  Qed.
  Lemma dema_mi l l' w : ss O l l' -> rrel (ss O) (dema l w) (dema l' w).
  Proof. intros. unfold dema. call ewma_mi. rr. call ewma_mi. rr. Qed.
  Lemma tema_mi l l' w : ss O l l' -> rrel (ss O) (tema l w) (tema l' w).
  Proof. intros. unfold tema. call ewma_mi. rr. call ewma_mi. rr. call ewma_mi. rr. Qed.
  Lemma wma_mi l l' w : ss O l l' -> rrel (ss O) (wma l w) (wma l' w).
  Proof. intros. unfold wma. rr. apply f2_app; [|ls]. eapply f2_map; [ls|]. intros. now apply m_dot. Qed.
  Lemma pwma_mi l l' w : ss O l l' -> rrel (ss O) (pwma l w) (pwma l' w).
  Proof. intros. unfold pwma. rr. destruct a. rr. apply f2_app; [|ls]. eapply f2_map; [ls|]. intros. now apply m_dot. Qed.
  Lemma fwma_mi l l' w : ss O l l' -> rrel (ss O) (fwma l w) (fwma l' w).
  Proof. intros. unfold fwma. rr. apply f2_app; [|ls]. eapply f2_map; [ls|]. intros. now apply m_dot. Qed.
  Lemma wilder_mi l l' w : ss O l l' -> rrel (ss O) (wilder l w) (wilder l' w).
  Proof.
    intros. unfold wilder. rr. apply f2_app; [|ls]. eapply (f2_scan (sm O) (sm O) (sm O)); [ls|ar|].
    intros. unfold wilder_step. split; ar.
  Qed.
  Lemma hull_mi l l' w : ss O l l' -> rrel (ss O) (hull l w) (hull l' w).
  Proof. intros. unfold hull. call wma_mi. call wma_mi. apply wma_mi. ls. Qed.
  Lemma trima_mi l l' w : ss O l l' -> rrel (ss O) (trima l w) (trima l' w).
  Proof. intros. unfold trima. call sma_mi. now apply sma_mi. Qed.
  Lemma zlma_mi l l' w : ss O l l' -> rrel (ss O) (zlma l w) (zlma l' w).
  Proof. intros. unfold zlma. rr. call ewma_mi. rr. Qed.

  Lemma m_mean l l' w : ss O l l' -> sm O (win_mean w l) (win_mean w l').
  Proof. intros. unfold win_mean. ar. Qed.
  Lemma m_dev2 m m' l l' : sm O m m' -> ss O l l' -> sm E (sum_dev2 m l) (sum_dev2 m' l').
  Proof. intros. unfold sum_dev2. eapply (f2_fold (sm O) (sm E)); [ls|ar|]. intros. brk. ar. Qed.
  Lemma m_var w l l' : ss O l l' -> sm E (variance_win w l) (variance_win w l').
  Proof. intros. unfold variance_win. rewrite (m_dev2 (win_mean w l) (win_mean w l') l l'); auto using m_mean. ar. Qed.
  Lemma variance_mi l l' w : ss O l l' -> rrel (ss E) (variance l w) (variance l' w).
  Proof. intros. unfold variance. rr. apply f2_app; [|ls]. eapply f2_map; [ls|]. intros. now apply m_var. Qed.
  Lemma m_std w l l' : ss O l l' -> sm E (std_dev_win w l) (std_dev_win w l').
  Proof. intros. unfold std_dev_win. rewrite (m_dev2 (win_mean w l) (win_mean w l') l l'); auto using m_mean. ar. Qed.
  Lemma std_raw_mi l l' w : ss O l l' -> rrel (ss E) (std_dev_raw l w) (std_dev_raw l' w).
  Proof. intros. unfold std_dev_raw. rr. eapply f2_map; [ls|]. intros. now apply m_std. Qed.
  Lemma std_dev_mi l l' w : ss O l l' -> rrel (ss E) (std_dev l w) (std_dev l' w).
  Proof. intros. unfold std_dev. rr. call std_raw_mi. rr. Qed.
  Lemma zscore_mi l l' w : ss O l l' -> rrel (ss O) (zscore l w) (zscore l' w).
  Proof.
    intros. unfold zscore. rr. apply f2_app; [|ls]. eapply f2_map; [ls|]. intros x x' Hx. unfold zscore_win.
    assert (sm O (win_mean w x) (win_mean w x')) by now apply m_mean.
    rewrite (m_dev2 (win_mean w x) (win_mean w x') x x'); auto. ar.
  Qed.
  Lemma mad_mi l l' w : ss O l l' -> rrel (ss E) (mad l w) (mad l' w).
  Proof.
    intros. unfold mad. rr. apply f2_app; [|ls]. eapply f2_map; [ls|]. intros x x' Hx. unfold mad_win.
    assert (sm O (win_mean w x) (win_mean w x')) by now apply m_mean.
    apply d_e; [|ar]. eapply (f2_fold (sm O) (sm E)); [ls|ar|]. intros. brk. ar.
  Qed.
  Lemma kurtosis_mi l l' w : ss O l l' -> rrel (ss E) (kurtosis l w) (kurtosis l' w).
  Proof.
    intros. unfold kurtosis. rr. apply f2_app; [|ls]. eapply f2_map; [ls|]. intros x x' Hx. unfold kurtosis_win.
    assert (sm O (win_mean w x) (win_mean w x')) by now apply m_mean.
    rewrite (m_dev2 (win_mean w x) (win_mean w x') x x'); auto.
    apply s_e; [|ar]. apply d_e; [|ar]. apply m_ee; [ar|]. eapply (f2_fold (sm O) (sm E)); [ls|ar|]. intros. brk. ar.
  Qed.
  Lemma skew_mi l l' w : ss O l l' -> rrel (ss O) (skew l w) (skew l' w).
  Proof.
    intros. unfold skew. rr. eapply r_bind; [eapply (r_rmap (ss O) (sm O)); [ls|]|].
    - intros x x' Hx. unfold skew_win. rr.
      assert (sm O (win_mean w x) (win_mean w x')) by now apply m_mean.
      rewrite (m_dev2 (win_mean w x) (win_mean w x') x x'); auto.
      apply d_o; [|ar]. apply m_eo; [ar|]. apply d_o; [|ar]. eapply (f2_fold (sm O) (sm O)); [ls|ar|]. intros. ar.
    - intros. rr.
  Qed.
  Lemma rmap_ex {A B} (f g : A -> result B) l : (forall a, f a = g a) -> rmap f l = rmap g l.
  Proof. intros H. induction l; cbn [rmap]; [easy|]. now rewrite H, IHl. Qed.
  Lemma m_match t l l' m m' : ss O l l' -> ss O m m' -> run_match t l' m' = run_match t l m.
  Proof.
    intros. unfold run_match. f_equal. assert (G : ss E (map (fun '(x, y) => fabs (x - y)) (combine l m)) (map (fun '(x, y) => fabs (x - y)) (combine l' m'))) by ls.
    apply f2_eq in G. now rewrite G.
  Qed.
  Lemma m_run l l' m i : ss O l l' -> ss O (run l m i) (run l' m i).
  Proof. intros. unfold run. ls. Qed.
  Lemma m_phi t l l' m : ss O l l' -> phi t l' m = phi t l m.
  Proof.
    intros H. unfold phi. rewrite (f2_length _ _ _ H). destruct (usub (length l) m); [|easy]. cbn [bind].
    erewrite rmap_ex; [reflexivity|]. intros. cbv beta. f_equal. apply map_ext. intros. now apply m_match; apply m_run.
  Qed.
  Lemma m_matches t l l' m : ss O l l' -> matches t l' m = matches t l m.
  Proof.
    intros H. unfold matches. rewrite (f2_length _ _ _ H). destruct (usub (length l) m); [|easy]. cbn [bind].
    erewrite map_ext; [reflexivity|]. intros [? ?]. now apply m_match; apply m_run.
  Qed.
  Lemma m_etol l l' t : ss O l l' -> entropy_tol l' t = entropy_tol l t.
  Proof.
    intros H. unfold entropy_tol. destruct t; [easy|]. rewrite (f2_length _ _ _ H).
    pose proof (std_raw_mi l l' (length l) H) as G. destruct (std_dev_raw l _), (std_dev_raw l' _); cbn in G; try easy. apply f2_eq in G. now subst.
  Qed.
  Lemma approx_entropy_mi l l' w r t : ss O l l' -> rrel (ss E) (approx_entropy l w r t) (approx_entropy l' w r t).
  Proof.
    intros H. unfold approx_entropy. rewrite (m_etol l l' t H). rr. eapply r_bind; [eapply (r_rmap (ss O) (sm E)); [ls|]|].
    - intros x x' Hx. rewrite !(m_phi _ x x') by easy. rr.
    - intros. rr.
  Qed.
  Lemma sample_entropy_mi l l' w r t : ss O l l' -> rrel (ss E) (sample_entropy l w r t) (sample_entropy l' w r t).
  Proof.
    intros H. unfold sample_entropy. rewrite (m_etol l l' t H). rr. eapply r_bind; [eapply (r_rmap (ss O) (sm E)); [ls|]|].
    - intros x x' Hx. rewrite !(m_matches _ x x') by easy. rr.
    - intros. rr.
  Qed.

  Lemma vidya_mi l l' w : ss O l l' -> rrel (ss O) (vidya l w) (vidya l' w).
  Proof.
    intros. unfold vidya. call std_raw_mi. rr. apply f2_app; [|ls].
    eapply (f2_scan (prel (prel (sm E) (sm E)) (sm O)) (sm O) (sm O)); [|ar|].
    - unfold zip3. apply f2_combine; [|ls]. apply f2_combine; ls.
    - intros. unfold vidya_step. brk. split; ar.
  Qed.
  (** running gains and losses change places *)
  Definition swp (x y : F * F) : Prop := fst y = snd x /\ snd y = fst x.
  Lemma m_cum l l' : ss O l l' -> Forall2 swp (cmo_cum l) (cmo_cum l').
  Proof.
    intros. unfold cmo_cum. constructor; [now split|]. eapply (f2_scan (ss O) swp swp); [ls|now split|].
    intros [g q] [g' q'] x x' [A B] Hx. cbn in A, B. subst.
    assert (P : sm O (at_ x 0) (at_ x' 0)) by now apply m_at.
    assert (Q : sm O (at_ x 1) (at_ x' 1)) by now apply m_at.
    assert (U : fmax #0 (at_ x' 1 - at_ x' 0) = fmax #0 (at_ x 0 - at_ x 1)) by (apply pos_e; ar).
    assert (V : fmax #0 (at_ x' 0 - at_ x' 1) = fmax #0 (at_ x 1 - at_ x 0)) by (apply pos_e; ar).
    cbn beta zeta. rewrite U, V. repeat split.
  Qed.
  Lemma cmo_raw_mi l l' w : ss O l l' -> ss O (cmo_raw l w) (cmo_raw l' w).
  Proof.
    intros. unfold cmo_raw. eapply f2_map; [eapply f2_windows; now apply m_cum|]. intros x x' Hx. unfold cmo_win.
    rewrite (f2_length _ _ _ Hx).
    destruct (f2_nth swp x x' (length x - 1) (fnan, fnan) (fnan, fnan) Hx) as [A B]; [now split|].
    destruct (f2_nth swp x x' 0 (fnan, fnan) (fnan, fnan) Hx) as [C D]; [now split|].
    cbn zeta. rewrite A, B, C, D. ar.
  Qed.
  Lemma vma_mi l l' w : ss O l l' -> rrel (ss O) (vma l w) (vma l' w).
  Proof.
    intros H. unfold vma. rr. apply f2_app; [|ls]. apply f2_skipn. eapply (f2_scan (prel (sm O) (sm O)) (sm O) (sm O)); [|ar|].
    - apply f2_combine; [now apply cmo_raw_mi|ls].
    - intros. unfold vma_step. brk. split; ar.
  Qed.
  Lemma m_pair2 (f f' : F * F) : prel (sm O) (sm O) f f' -> sm O (fst f) (fst f') /\ sm O (snd f) (snd f').
  Proof. intros [A B]. now split. Qed.
  Lemma m_lrf a b c w ids x x' : ss O x x' -> sm O (lrf_win a b c w ids x) (lrf_win a b c w ids x').
  Proof.
    intros. unfold lrf_win.
    set (u := fold_left _ (combine ids x) _). set (u' := fold_left _ (combine ids x') _).
    assert (G : prel (sm O) (sm O) u u').
    { eapply (f2_fold (prel eq (sm O)) (prel (sm O) (sm O))); [|split; ar|].
      - apply f2_combine; [apply f2_refl|ls].
      - intros. brk. split; ar. }
    destruct u, u', G. cbn [fst snd] in *. ar.
  Qed.
  Lemma lrf_mi l l' w : ss O l l' -> rrel (ss O) (lrf l w) (lrf l' w).
  Proof. intros. unfold lrf. rr. apply f2_app; [|ls]. eapply f2_map; [ls|]. intros. now apply m_lrf. Qed.
  Lemma ma_mi l l' w m : ss O l l' -> rrel (ss O) (ma l w m) (ma l' w m).
  Proof.
    intros. destruct m; cbn [ma]; auto using sma_mi, ewma_mi, dema_mi, tema_mi, wma_mi, hull_mi, lrf_mi, pwma_mi, trima_mi, vma_mi, vidya_mi, wilder_mi, zlma_mi.
  Qed.
  Lemma m_wmean ws x x' : ss O x x' -> sm O (weighted_mean ws x) (weighted_mean ws x').
  Proof.
    intros. unfold weighted_mean. set (u := fold_left _ (combine ws x) _). set (u' := fold_left _ (combine ws x') _).
    assert (G : prel (sm O) (sm E) u u').
    { eapply (f2_fold (prel eq (sm O)) (prel (sm O) (sm E))); [|split; ar|].
      - apply f2_combine; [apply f2_refl|ls].
      - intros. brk. split; ar. }
    destruct u, u', G. cbn [fst snd] in *. brk. ar.
  Qed.
  Lemma kernel_mi l l' s : ss O l l' -> rrel (ss O) (kernel l s) (kernel l' s).
  Proof. intros H. unfold kernel. rr. rewrite (f2_length _ _ _ H). apply f2_same. intros. apply m_wmean. ls. Qed.
  Lemma alma_mi l l' w s m : ss O l l' -> rrel (ss O) (alma l w s m) (alma l' w s m).
  Proof.
    intros H. unfold alma. rr. rewrite (f2_length _ _ _ H). apply f2_app; [|ls]. apply f2_same. intros. apply m_wmean.
    apply f2_same. intros. now apply m_at.
  Qed.
  Lemma kama_mi l l' w s n : ss O l l' -> rrel (ss O) (kama l w s n) (kama l' w s n).
  Proof.
    intros. unfold kama. rr. apply f2_app; [|ls]. eapply (f2_scan (ss O) (sm O) (sm O)); [ls|ar|].
    intros st st' x x' Ha Hx. unfold kama_step.
    set (u := fold_left _ (windows 2 x) _). set (u' := fold_left _ (windows 2 x') _).
    assert (G : sm E u u').
    { eapply (f2_fold (ss O) (sm E)); [ls|ar|]. intros. brk. ar. }
    clearbody u u'. brk. split; ar.
  Qed.
  Lemma hwma_mi l l' a b c : ss O l l' -> rrel (ss O) (hwma l a b c) (hwma l' a b c).
  Proof.
    intros. unfold hwma. rr. eapply r_bind; [eapply r_idx; ls|]. intros. rr.
    eapply (f2_scan (sm O) (sm O) (prel (prel (sm O) (sm O)) (sm O))); [ls|repeat split; ar|].
    intros. unfold hwma_step. brk. repeat split; ar.
  Qed.
  Lemma ssf_mi l l' w t : ss O l l' -> rrel (ss O) (ssf l w t) (ssf l' w t).
  Proof.
    intros. unfold ssf. rr; repeat (eapply r_bind; [eapply r_idx; ls|intros ? ? ?]); rr.
    - apply f2_app; [|ls]. eapply (f2_scan (sm O) (sm O) (prel (prel (sm O) (sm O)) (sm O))); [ls|repeat split; ar|].
      intros. unfold ssf3_step. brk. repeat split; ar.
    - apply f2_app; [|ls]. eapply (f2_scan (sm O) (sm O) (prel (sm O) (sm O))); [ls|repeat split; ar|].
      intros. unfold ssf2_step. brk. repeat split; ar.
  Qed.
  Lemma t3_mi l l' w f : ss O l l' -> rrel (ss O) (t3 l w f) (t3 l' w f).
  Proof. intros. unfold t3. repeat (call ewma_mi; rr). Qed.
  Lemma mse_mi x x' y y' : ss O x x' -> ss O y y' -> ss E (mse x y) (mse x' y').
  Proof.
    intros. unfold mse, obs_est. eapply (f2_scan (prel (prel eq (sm O)) (sm O)) (sm E) (sm E)); [apply f2_combine; [now apply f2_enumerate|ls]|ar|].
    intros. brk. split; ar.
  Qed.
  Lemma rmse_mi x x' y y' : ss O x x' -> ss O y y' -> ss E (rmse x y) (rmse x' y').
  Proof.
    intros. unfold rmse, obs_est. eapply (f2_scan (prel (prel eq (sm O)) (sm O)) (sm E) (sm E)); [apply f2_combine; [now apply f2_enumerate|ls]|ar|].
    intros. brk. split; ar.
  Qed.
  Lemma mae_mi x x' y y' : ss O x x' -> ss O y y' -> ss E (mae x y) (mae x' y').
  Proof.
    intros. unfold mae, obs_est. eapply (f2_scan (prel (prel eq (sm O)) (sm O)) (sm E) (sm E)); [apply f2_combine; [now apply f2_enumerate|ls]|ar|].
    intros. brk. split; ar.
  Qed.
  Lemma smape_mi x x' y y' : ss O x x' -> ss O y y' -> ss E (smape x y) (smape x' y').
  Proof.
    intros. unfold smape, obs_est. eapply (f2_scan (prel (prel eq (sm O)) (sm O)) (sm E) (sm E)); [apply f2_combine; [now apply f2_enumerate|ls]|ar|].
    intros. brk. split; ar.
  Qed.
  Lemma mase_mi x x' y y' : ss O x x' -> ss O y y' -> rrel (ss E) (mase x y) (mase x' y').
  Proof.
    intros. unfold mase. pose proof (mae_mi x x' y y' H H0) as G. apply f2_eq in G. rewrite G.
    assert (W : Forall2 (ss O) (firstn (length (skipn 1 (mae x y))) (windows 2 x)) (firstn (length (skipn 1 (mae x y))) (windows 2 x'))) by ls.
    revert W. generalize (firstn (length (skipn 1 (mae x y))) (windows 2 x)) (firstn (length (skipn 1 (mae x y))) (windows 2 x')). intros ws ws' W.
    unfold zip_i32. rewrite (f2_length _ _ _ W). destruct (_ <? _)%N; [|easy]. cbn [bind]. apply r_ok.
    constructor; [ar|]. eapply (f2_map (prel (sm E) (sm E))); [apply f2_combine; [apply f2e_refl|]|intros; brk; ar].
    eapply (f2_scan (prel (ss O) eq) (sm E) (sm E)); [apply f2_combine; [exact W|apply f2_refl]|ar|]. intros. brk. split; ar.
  Qed.
End Rel.
