(** * ShiftRel: every function run on prices and on the same prices plus a constant. *)

From Coq Require Import Reals Lra Lia.
From Verif Require Import Base BaseFacts Num XReal XRFacts Scale Shift.
From Verif Require Import Distribution Regression Smooth Correlation Volatility Volume Trend Momentum.
From Verif Require Import RSpec SmoothVals SmoothReal SmoothReal2.
Local Unset Implicit Arguments.

Local Notation ss g := (Forall2 (Shift.sim g)).
Local Notation P2 a b := (prel (Shift.sim a) (Shift.sim b)).

Ltac brk := repeat match goal with
  | H : prel _ _ ?x ?y |- _ => destruct x, y; destruct H; cbn [fst snd] in *
  | H : wrel _ _ ?x ?y |- _ => destruct H as (? & ? & ?)
  | H : srel _ _ ?x ?y |- _ => destruct H as [? ?]
  | H : Shift.sim 0 ?a ?b |- _ => apply s_eq in H; subst
  | H : Forall2 (Shift.sim 0) ?a ?b |- _ => apply f2_same0 in H; subst
  | H : Forall2 eq ?a ?b |- _ => apply f2_eq_eq in H; subst
  | H : ?a = ?b |- _ => match type of a with xr => is_var a; is_var b; subst | list _ => is_var a; is_var b; subst end
  end.
Ltac lens := repeat match goal with
  | |- context [length (map _ _)] => rewrite map_length
  | |- context [length (skipn _ _)] => rewrite skipn_length
  | H : Forall2 _ ?a ?a' |- context [length ?a'] =>
      tryif constr_eq a a' then fail else rewrite (f2_length _ _ _ H)
  end.
Ltac nz := first [assumption | apply INR_S1 | apply not_0_INR; lia | apply IZR_neq; lia | lra |
  match goal with |- (IZR _ / IZR _ <> 0)%R => unfold Rdiv; apply Rmult_integral_contrapositive_currified; [apply IZR_neq; lia | apply Rinv_neq_0_compat, IZR_neq; lia] end].
Ltac cst := first [eassumption | match goal with |- Fin _ = _ => reflexivity end | eapply x_lit | eapply x_frac | eapply x_nat | eapply c_N |
  (eapply c_div; [cst | cst | nz]) | (eapply c_sub; [cst | cst]) | (eapply c_add; [cst | cst]) | (eapply c_mul; [cst | cst]) | (eapply c_neg; cst)].
Ltac noev := match goal with |- ?G => tryif has_evar G then fail else idtac end.
Ltac geq := noev; first [reflexivity | lra | ring |
  (repeat match goal with H : length ?l = _ |- context [length ?l] => rewrite H end;
   first [reflexivity | lra | ring | (field; repeat split; nz)]) |
  (repeat match goal with H : length ?l = _ |- context [length ?l] => rewrite H end;
   repeat match goal with |- context [INR (?w - 1)] => rewrite (INR_w w) by lia end;
   repeat match goal with |- context [INR (?w + 1)] => rewrite (plus_INR w 1) end;
   cbn [INR]; first [reflexivity | lra | ring | (field; repeat split; nz)])].
Lemma b_if {A} (b b' : bool) (x y x' y' : A) : b' = b -> x' = x -> y' = y ->
  (if b' then x' else y') = (if b then x else y).
Proof. now intros -> -> ->. Qed.
Ltac hook0 := fail. Ltac hook1 := fail. Ltac hook2 := fail. Ltac hook3 := fail. Ltac hook4 := fail.
Ltac hook5 := fail. Ltac hook6 := fail. Ltac hook7 := fail. Ltac hook8 := fail. Ltac hook9 := fail.
Ltac isc x := lazymatch x with Fin _ => idtac | flit _ _ => idtac | fofnat _ => idtac | fofN _ => idtac | fdiv ?a ?b => isc a; isc b | fsub ?a ?b => isc a; isc b | fmul ?a ?b => isc a; isc b
  | _ => match goal with H : x = Fin _ |- _ => idtac end end.
Ltac one :=
  match goal with
  | H : Shift.sim _ ?a ?b |- Shift.sim _ ?a ?b => first [exact H | refine (s_conv _ _ _ _ H _); geq]
  | H : Forall2 _ ?a ?b |- Forall2 _ ?a ?b => first [exact H | refine (f2_conv _ _ _ _ H _); geq]
  | H : orel _ ?a ?b |- orel _ ?a ?b => exact H
  | |- Shift.sim _ fnan fnan => apply s_nan
  | |- Shift.sim _ ?x ?x => first [apply s_same | refine (s_conv _ _ _ _ (s_same _) _); geq]
  | |- Shift.sim _ (fadd _ _) _ => eapply s_add
  | |- Shift.sim _ (fsub _ _) _ => eapply s_sub
  | |- Shift.sim _ (fmul ?a _) (fmul ?a _) => isc a; eapply s_kmul; [ | cst | ]
  | |- Shift.sim _ (fmul _ ?a) (fmul _ ?a) => isc a; eapply s_mulk; [ | cst | ]
  | |- Shift.sim _ (fdiv _ ?a) (fdiv _ ?a) => isc a; eapply s_divk; [ | solve [cst] | solve [nz] | ]
  | |- Shift.sim _ (fmul _ _) _ => eapply (s_fun2 fmul)
  | |- Shift.sim _ (fdiv _ _) _ => eapply (s_fun2 fdiv)
  | |- Shift.sim _ (fpow _ _) _ => eapply (s_fun2 fpow)
  | |- Shift.sim _ (fneg _) _ => eapply s_neg
  | |- Shift.sim _ (fabs _) _ => eapply (s_fun fabs)
  | |- Shift.sim _ (fsqrt _) _ => eapply (s_fun fsqrt)
  | |- Shift.sim _ (fsignum _) _ => eapply (s_fun fsignum)
  | |- Shift.sim _ (fln _) _ => eapply (s_fun fln)
  | |- Shift.sim _ (flog10 _) _ => eapply (s_fun flog10)
  | |- Shift.sim _ (powi2 _) _ => eapply (s_fun powi2)
  | |- Shift.sim _ (powi3 _) _ => eapply (s_fun powi3)
  | |- Shift.sim _ (powi4 _) _ => eapply (s_fun powi4)
  | |- Shift.sim _ (fmax _ _) _ => eapply s_max
  | |- Shift.sim _ (fmin _ _) _ => eapply s_min
  | |- Shift.sim _ (fbool _) (fbool _) => unfold fbool; apply p_if
  | |- Shift.sim _ (at_ _ _) _ => eapply s_at
  | |- Shift.sim _ (last_ _) _ => eapply s_last
  | |- Shift.sim _ (fsum _) _ => eapply s_fsum
  | |- Shift.sim _ (if _ then _ else _) _ => apply p_if
  | |- Shift.sim _ (unwrap_or _ _) _ => apply o_unwrap
  | |- Shift.sim _ (fold_left fmax _ _) (fold_left fmax _ _) => eapply (f2_fold _ (Shift.sim _)); [| | intros]
  | |- Shift.sim _ (fold_left fmin _ _) (fold_left fmin _ _) => eapply (f2_fold _ (Shift.sim _)); [| | intros]
  | |- Shift.sim ?g (fold_left _ _ _) (fold_left _ _ _) => is_evar g; unify g 0%R
  | |- Shift.sim 0 (fold_left _ _ _) (fold_left _ _ _) => eapply (f2_fold _ (Shift.sim 0)); [| | intros]
  | |- fltb _ _ = fltb _ _ => eapply s_ltb
  | |- fgtb _ _ = fgtb _ _ => unfold fgtb; eapply s_ltb
  | |- fleb _ _ = fleb _ _ => eapply s_leb
  | |- fgeb _ _ = fgeb _ _ => unfold fgeb; eapply s_leb
  | |- feqb _ _ = feqb _ _ => eapply s_eqb
  | |- fneb _ _ = fneb _ _ => unfold fneb; f_equal
  | |- andb _ _ = andb _ _ => f_equal
  | |- orb _ _ = orb _ _ => f_equal
  | |- @eq bool (if _ then _ else _) (if _ then _ else _) => apply b_if
  | |- ?x = ?x => reflexivity
  | |- @eq R ?a ?b => is_evar b; tryif has_evar a then fail else reflexivity
  | |- @eq R _ _ => geq
  | |- rrel _ (bind (usub _ _) _) (bind (usub _ _) _) => eapply r_usub; intros ?
  | |- rrel _ (bind (usubN _ _) _) (bind (usubN _ _) _) => eapply r_usubN; intros ?
  | |- rrel _ (bind (umul _ _) _) (bind (umul _ _) _) => eapply r_umul
  | |- rrel _ (bind (uadd _ _) _) (bind (uadd _ _) _) => eapply r_uadd
  | |- rrel _ (bind _ _) (bind _ _) => eapply r_bind; [| intros ? ? ?]
  | |- rrel _ (Ok _) (Ok _) => apply r_ok
  | |- rrel _ Panic Panic => apply r_panic
  | |- rrel _ (usub ?a ?b) (usub ?a ?b) => apply r_refl
  | |- rrel _ (idx _ _) _ => eapply r_idx
  | |- rrel _ (slice_to _ _) _ => eapply r_slice_to
  | |- rrel _ (slice_from _ _) _ => eapply r_slice_from
  | |- rrel _ (slice _ _ _) _ => eapply r_slice
  | |- rrel _ (rwindows _ _) _ => eapply r_rwindows
  | |- rrel _ (if _ then _ else _) _ => apply r_if
  | |- rrel _ (rmap _ _) _ => eapply r_rmap; [| intros ? ? ?]
  | |- rrel (Forall2 (Shift.sim 0)) ?x ?x => apply r_of_eq; reflexivity
  | |- Forall2 _ ?x ?x => first [apply f2_refl | apply f2_shifted; symmetry; apply shifted_0]
  | |- Forall2 _ (_ ++ _) _ => eapply f2_app
  | |- Forall2 _ (_ :: _) _ => constructor
  | |- Forall2 _ [] [] => constructor
  | |- Forall2 _ (pad _ _) _ => apply f2_repeat
  | |- Forall2 _ (repeat _ _) _ => apply f2_repeat
  | |- Forall2 _ (map _ _) _ => eapply f2_map; [| intros ? ? ?]
  | |- Forall2 _ (zip2 _ _) _ => unfold zip2
  | |- Forall2 _ (zip3 _ _ _) _ => unfold zip3
  | |- Forall2 _ (zip4 _ _ _ _) _ => unfold zip4
  | |- Forall2 _ (zip5 _ _ _ _ _) _ => unfold zip5
  | |- Forall2 _ (zip6 _ _ _ _ _ _) _ => unfold zip6
  | |- Forall2 _ (combine _ _) _ => eapply f2_combine
  | |- Forall2 _ (skipn _ _) _ => eapply f2_skipn
  | |- Forall2 _ (firstn _ _) _ => eapply f2_firstn
  | |- Forall2 _ (rev _) _ => eapply f2_rev
  | |- Forall2 (Forall2 _) (windows _ _) _ => eapply f2_windows
  | |- Forall2 _ (windows _ _) _ => eapply f2_windows_len; [lia|]
  | |- Forall2 _ (enumerate _) _ => eapply f2_enumerate
  | |- Forall2 _ (seq _ _) (seq _ _) => apply f2_refl
  | |- Forall2 _ (upd _ _ _) (upd _ _ _) => apply f2_upd
  | |- prel _ _ (_, _) (_, _) => split; cbn [fst snd]
  | |- ?R ?a _ => is_evar R; match type of a with
      | xr => let S := open_constr:(Shift.sim _) in unify R S
      | prod _ _ => let S := open_constr:(prel _ _) in unify R S
      end
  | _ => first [hook0 | hook1 | hook2 | hook3 | hook4 | hook5 | hook6 | hook7 | hook8 | hook9]
  end.
Ltac go := brk; cbv beta zeta; subst; lens; try one.
Ltac sims0 := repeat (progress go || (cbn [fst snd])).
Ltac sims := sims0; sims0; sims0.
Ltac scn U := eapply (f2_scan _ _ U); [sims|sims|intros; brk].
Ltac call L := eapply r_bind; [eapply L; sims | intros ? ? ?].
Ltac folds R :=
  match goal with |- context [fold_left ?f ?x ?z] =>
    match goal with |- context [fold_left ?f' ?y ?z'] => tryif constr_eq (fold_left f x z) (fold_left f' y z') then fail else
    let E := fresh "E" in
    assert (E : R (fold_left f x z) (fold_left f' y z')); [eapply f2_fold; [sims|sims|intros; brk; subst]
    | revert E; generalize (fold_left f x z) (fold_left f' y z'); intros; brk] end end.

(** ** smooth.rs *)

Lemma sma_sh g l l' w : ss g l l' -> rrel (ss g) (sma l w) (sma l' w).
Proof. intros H. unfold sma. sims. unfold sma_win. sims. Qed.
Lemma ewma_sh g l l' w : ss g l l' -> rrel (ss g) (ewma l w) (ewma l' w).
Proof.
  intros H. unfold ewma. sims. scn (Shift.sim g). unfold ewma_step. sims.
Qed.
Lemma wilder_sh g l l' w : ss g l l' -> rrel (ss g) (wilder l w) (wilder l' w).
Proof.
  intros H. unfold wilder. destruct (w =? 1)%nat eqn:E; [sims|]. apply Nat.eqb_neq in E. sims. 
  - scn (Shift.sim g). 
    + unfold wilder_step. sims. 
Qed.
Lemma s_dot g rs l l' : length rs = length l -> ss g l l' ->
  Shift.sim (Rsum rs * g) (dot (map Fin rs) l) (dot (map Fin rs) l').
Proof.
  intros L H. unfold dot. unfold fsum.
  cut (forall a b g0, Shift.sim g0 a b -> Shift.sim (g0 + Rsum rs * g)
    (fold_left fadd (map (fun '(v, w) => fmul v w) (combine l (map Fin rs))) a)
    (fold_left fadd (map (fun '(v, w) => fmul v w) (combine l' (map Fin rs))) b)).
  { intros C. eapply s_conv; [apply (C _ _ 0%R); apply s_same|]. ring. }
  revert rs L. induction H as [|x y l l' H _ IH]; intros [|r rs] L a b g0 S; cbn in L; try easy; cbn [map combine fold_left].
  - eapply s_conv; [exact S|]. rewrite Rsum_nil. ring.
  - eapply s_conv; [apply (IH rs (eq_add_S _ _ L) _ _ (g0 + g * r)%R)|].
    + eapply s_add; [exact S| |reflexivity]. eapply s_mulk; [exact H|reflexivity|reflexivity].
    + rewrite Rsum_cons. ring.
Qed.
Lemma weights_fin {A} (f : A -> R) d l : d <> 0%R ->
  map (fun a => fdiv (Fin (f a)) (Fin d)) l = map Fin (map (fun a => f a / d)%R l).
Proof. intros. rewrite map_map. apply map_ext. intros. now apply x_div. Qed.
Lemma Rsum_over {A} (f : A -> R) d l : (Rsum (map (fun a => f a / d) l) = Rsum (map f l) / d)%R.
Proof. unfold Rdiv. rewrite <- (Rmult_comm (/ d)), <- Rsum_map_scale. f_equal. apply map_ext. intros. ring. Qed.

Lemma wma_sh g l l' w : ss g l l' -> rrel (ss g) (wma l w) (wma l' w).
Proof.
  intros H. unfold wma. destruct (wma_weights w) as [ws|] eqn:E; [|easy]. cbn [bind].
  apply (wma_weights_val (F := xr)) in E. sims.
  rewrite wma_den. match goal with H : (0 < length ?a)%nat |- _ => set (n := length a) in *; pose proof (INR_pos n H) end.
  rewrite (map_ext _ (fun k => fdiv (Fin (INR k)) (Fin (INR n * (INR n + 1) / 2)))) by (intros; now rewrite x_nat).
  rewrite weights_fin by nra.
  eapply s_conv; [apply s_dot; [now rewrite !map_length, seq_length|eassumption]|].
  rewrite Rsum_over, Rsum_seq. field. nra.
Qed.
Lemma pwma_sh g l l' w : ss g l l' -> rrel (ss g) (pwma l w) (pwma l' w).
Proof.
  intros H. unfold pwma. destruct (le_lt_dec 64 w); [now rewrite Pascal.pascal_row_big|].
  destruct w as [|w']; [easy|]. set (w := S w'). rewrite Pascal.pascal_row_small by lia. cbn [bind]. rewrite map_map. sims.
  pose proof (Rsum_binom (w - 1)) as X. replace (S (w - 1)) with w in X by lia.
  assert (P : (0 < RN (2 ^ N.of_nat (w - 1)))%R) by (apply RN_pos, N.neq_0_lt_0, N.pow_nonzero; easy).
  change (map _ (seq 0 w)) with (map (fun k => fdiv (Fin (RN (Pascal.binom (w - 1) k))) (Fin (RN (2 ^ N.of_nat (w - 1))))) (seq 0 w)).
  rewrite weights_fin by lra.
  eapply s_conv; [apply s_dot; [rewrite !map_length, seq_length; lia|eassumption]|].
  rewrite Rsum_over, X. field. lra.
Qed.
Lemma x_fib_weights w : (2 <= w)%nat -> fib_weights (w - 2) =
  map Fin (map (fun k => INR (fib k) / Rsum (map (fun k => INR (fib k)) (seq 1 w)))%R (seq 1 w)).
Proof.
  intros Hw. unfold fib_weights. rewrite x_fib_seq. replace (w - 2 + 2)%nat with w by lia.
  assert (D : fold_left (fun d x : xr => fadd d x) (skipn 2 (map (fun k => Fin (INR (fib k))) (seq 1 w)))
     (flit 2 1) = Fin (Rsum (map (fun k => INR (fib k)) (seq 1 w)))).
  { destruct w as [|[|w]]; try lia. cbn [seq map skipn].
    rewrite <- map_map with (f := fun k => INR (fib k)) (g := Fin).
    rewrite x_lit. rewrite fold_left_map.
    rewrite (x_fold_add (fun x : R => Fin x) (fun x => x)) by easy.
    rewrite map_id, !Rsum_cons. cbn [fib INR Nat.add]. f_equal. lra. }
  rewrite D, map_map. apply weights_fin. pose proof (Rsum_fib_pos w ltac:(lia)). lra.
Qed.
Lemma fwma_sh g l l' w : ss g l l' -> rrel (ss g) (fwma l w) (fwma l' w).
Proof.
  intros H. unfold fwma. sims. rewrite x_fib_weights by easy. pose proof (Rsum_fib_pos (length a0) ltac:(lia)).
  eapply s_conv; [apply s_dot; [now rewrite !map_length, seq_length|eassumption]|].
  rewrite Rsum_over. field. lra.
Qed.
Ltac hook0 ::= match goal with
  | |- rrel _ (ewma _ _) _ => eapply ewma_sh
  | |- rrel _ (sma _ _) _ => eapply sma_sh
  | |- rrel _ (wilder _ _) _ => eapply wilder_sh
  | |- rrel _ (wma _ _) _ => eapply wma_sh
  end.
Lemma dema_sh g l l' w : ss g l l' -> rrel (ss g) (dema l w) (dema l' w).
Proof. intros H. unfold dema. sims. Qed.
Lemma tema_sh g l l' w : ss g l l' -> rrel (ss g) (tema l w) (tema l' w).
Proof. intros H. unfold tema. sims. Qed.
Lemma hull_sh g l l' w : ss g l l' -> rrel (ss g) (hull l w) (hull l' w).
Proof. intros H. unfold hull. call wma_sh. call wma_sh. apply wma_sh. sims. Qed.
Lemma trima_sh g l l' w : ss g l l' -> rrel (ss g) (trima l w) (trima l' w).
Proof. intros H. unfold trima. sims. Qed.
Lemma zlma_sh g l l' w : ss g l l' -> rrel (ss g) (zlma l w) (zlma l' w).
Proof. intros H. unfold zlma. sims. Qed.

Lemma lrf_fold_sh g rs l l' ya yb xa xb g1 g2 : length rs = length l -> ss g l l' -> Shift.sim g1 ya yb -> Shift.sim g2 xa xb ->
  prel (Shift.sim (g1 + INR (length l) * g)) (Shift.sim (g2 + Rsum rs * g))
    (fold_left (fun '(ys, xys) '(count, val) => (fadd ys val, fadd xys (fmul count val))) (combine (map Fin rs) l) (ya, xa))
    (fold_left (fun '(ys, xys) '(count, val) => (fadd ys val, fadd xys (fmul count val))) (combine (map Fin rs) l') (yb, xb)).
Proof.
  intros L H. revert rs L ya yb xa xb g1 g2. induction H as [|x y l l' H _ IH]; intros [|r rs] L ya yb xa xb g1 g2 S1 S2; cbn in L; try easy; cbn [map combine fold_left].
  - split; cbn [fst snd]; eapply s_conv; try eassumption; cbn; ring.
  - destruct (IH rs (eq_add_S _ _ L) (fadd ya x) (fadd yb y) (fadd xa (fmul (Fin r) x)) (fadd xb (fmul (Fin r) y)) (g1 + g)%R (g2 + r * g)%R) as [A B].
    + eapply s_add; [exact S1|exact H|reflexivity].
    + eapply s_add; [exact S2| |reflexivity]. eapply s_kmul; [exact H|reflexivity|reflexivity].
    + split; eapply s_conv; try eassumption; rewrite ?Rsum_cons; cbn [length]; rewrite ?S_INR; ring.
Qed.
Lemma lrf_win_sh g n a a' : (0 < n)%nat -> length a = n -> ss g a a' ->
  let sx := (INR n * (INR n + 1) / 2)%R in
  let sxx := (INR n * (INR n + 1) * (2 * INR n + 1) / 6)%R in
  let den := (INR n * sxx - sx * sx)%R in
  let is := map fofnat (seq 1 n) in
  Shift.sim g (lrf_win (Fin sx) (Fin sxx) (Fin den) n is a) (lrf_win (Fin sx) (Fin sxx) (Fin den) n is a').
Proof.
  intros Hn L H sx sxx den is.
  assert (E : is = map Fin (map INR (seq 1 n))) by (unfold is; rewrite map_map; apply map_ext; intros; now rewrite x_nat).
  destruct (Nat.eq_dec n 1) as [->|N1].
  { destruct H as [|x y [|] l' S H]; cbn in L; try lia. inversion H; subst.
    assert (D : den = 0%R) by (unfold den, sxx, sx; cbn [INR]; field).
    assert (X : forall x, lrf_win (Fin sx) (Fin sxx) (Fin den) 1 is [x] = NaN).
    { intros z. unfold lrf_win. rewrite E, D. cbn [seq map combine fold_left].
      replace sx with 1%R by (unfold sx; cbn [INR]; field). rewrite x_lit, x_nat. cbn [INR].
      assert (Z : fdiv (fsub (fmul (Fin 1) (fadd (Fin 0) (fmul (Fin 1) z))) (fmul (Fin 1) (fadd (Fin 0) z))) (Fin 0) = NaN).
      { assert (T1 : forall r, Req (1 * (0 + 1 * r) - 1 * (0 + r)) 0 = true) by (intros; apply Req_true; ring).
        assert (T2 : Req 1 0 = false) by (apply Req_false; lra). assert (T3 : Rltb 1 0 = false) by (apply Rltb_false; lra).
        destruct z as [r|b|]; [|destruct b|easy].
        - do 3 rewrite ?x_mul, ?x_add. rewrite x_sub. cbn. rewrite T1. now rewrite (proj2 (Req_true 0 0) eq_refl).
        - do 4 (cbn; rewrite ?T2, ?T3). easy.
        - do 4 (cbn; rewrite ?T2, ?T3). easy. }
      rewrite Z. now rewrite x_mul_nan_l, x_add_nan_l. }
    rewrite !X. apply s_nan. }
  pose proof (INR_pos n Hn) as P. assert (P2 : (2 <= INR n)%R) by (change 2%R with (INR 2); apply le_INR; lia).
  assert (D : den = (INR n * INR n * ((INR n + 1) * (INR n - 1)) / 12)%R) by (unfold den, sxx, sx; field).
  assert (D0 : (0 < den)%R).
  { rewrite D. apply Rdiv_lt_0_compat; [|lra]. apply Rmult_lt_0_compat; apply Rmult_lt_0_compat; lra. }
  unfold lrf_win. rewrite E.
  pose proof (lrf_fold_sh g (map INR (seq 1 n)) a a' (flit 0 1) (flit 0 1) (flit 0 1) (flit 0 1) 0 0) as F.
  specialize (F ltac:(now rewrite map_length, seq_length) H (s_same _) (s_same _)). revert F.
  rewrite Rsum_seq, L. fold sx.
  generalize (fold_left (fun '(ys, xys) '(count, val) => (fadd ys val, fadd xys (fmul count val))) (combine (map Fin (map INR (seq 1 n))) a) (flit 0 1, flit 0 1)).
  generalize (fold_left (fun '(ys, xys) '(count, val) => (fadd ys val, fadd xys (fmul count val))) (combine (map Fin (map INR (seq 1 n))) a') (flit 0 1, flit 0 1)).
  intros [y' xy'] [y xy] [S1 S2]. cbn [fst snd] in S1, S2.
  eapply (s_add 0 g); [| |ring].
  - eapply s_mulk; [|apply x_nat|].
    + eapply s_divk; [|reflexivity|apply Rgt_not_eq; exact D0|reflexivity].
      eapply s_sub; [eapply s_kmul; [exact S2|apply x_nat|reflexivity]|eapply s_kmul; [exact S1|reflexivity|reflexivity]|reflexivity].
    + field. lra.
  - eapply s_divk; [|reflexivity|apply Rgt_not_eq; exact D0|].
    + eapply s_sub; [eapply s_mulk; [exact S1|reflexivity|reflexivity]|eapply s_kmul; [exact S2|reflexivity|reflexivity]|reflexivity].
    + apply Rmult_eq_reg_r with den; [|lra]. unfold Rdiv. rewrite Rmult_assoc, Rinv_l by lra. unfold den. ring.
Qed.
Lemma lrf_sh g l l' w : ss g l l' -> rrel (ss g) (lrf l w) (lrf l' w).
Proof.
  intros H. unfold lrf. eapply r_umul. eapply r_usub. intros Hw.
  assert (Ex : fdiv (fofN (N.of_nat w * N.of_nat (w + 1))) (@flit xr XR 2 1) = Fin (INR w * (INR w + 1) / 2)).
  { rewrite x_lit. unfold fofN at 1. cbn [XR]. unfold xofN. rewrite x_div by lra. f_equal.
    rewrite N2Z.inj_mul, !nat_N_Z, mult_IZR, <- !INR_IZR_INZ, plus_INR. cbn [INR]. lra. }
  assert (Exx : fdiv (fmul (Fin (INR w * (INR w + 1) / 2)) (fofnat (2 * w + 1))) (@flit xr XR 3 1) = Fin (INR w * (INR w + 1) * (2 * INR w + 1) / 6)).
  { rewrite x_lit, x_nat, x_mul, x_div by lra. f_equal. rewrite plus_INR, mult_INR. cbn [INR]. lra. }
  rewrite Ex, Exx, x_nat, !x_mul, x_sub. sims.
  now apply lrf_win_sh.
Qed.
Ltac hook1 ::= match goal with |- rrel _ (lrf _ _) _ => eapply lrf_sh end.
(** The averages whose weights sum to one; [vma] and [vidya] start from 0 and are not among them. *)
Definition affine_mode (m : MaMode) : bool := match m with Variable_ | Vidya => false | _ => true end.
Lemma ma_sh g l l' w m : affine_mode m = true -> ss g l l' -> rrel (ss g) (ma l w m) (ma l' w m).
Proof.
  intros A. destruct m; cbn [ma]; try easy.
  - apply sma_sh. - apply ewma_sh. - apply dema_sh. - apply tema_sh. - apply wma_sh. - apply hull_sh. - apply lrf_sh.
  - apply pwma_sh. - apply trima_sh. - apply wilder_sh. - apply zlma_sh.
Qed.
Lemma t3_sh g l l' w f : ss g l l' -> rrel (ss g) (t3 l w (option_map Fin f)) (t3 l' w (option_map Fin f)).
Proof.
  intros H. unfold t3. 
  assert (V : exists v, fclamp_val (unwrap_or (option_map Fin f) (flit 7 10)) (flit 0 1) (flit 1 1) = Fin v).
  { destruct f; eexists; cbn [option_map unwrap_or]; [|rewrite x_frac]; apply x_clamp01. }
  destruct V as [v ->]. rewrite !x_pow2, !x_pow3, !x_lit. do 3 rewrite ?x_neg, ?x_mul, ?x_add, ?x_sub. sims.
Qed.
Lemma hwma_sh g l l' a b c : ss g l l' ->
  rrel (ss g) (hwma l (option_map Fin a) (option_map Fin b) (option_map Fin c)) (hwma l' (option_map Fin a) (option_map Fin b) (option_map Fin c)).
Proof.
  intros H. unfold hwma.
  assert (V : forall (o : option R) n d, exists v, fclamp_val (unwrap_or (option_map Fin o) (flit n d)) (flit 0 1) (flit 1 1) = Fin v).
  { intros o n d. destruct o; eexists; cbn [option_map unwrap_or]; [|rewrite x_frac]; apply x_clamp01. }
  destruct (V a 2%Z 10%positive) as [x ->], (V b 1%Z 10%positive) as [y ->], (V c 1%Z 10%positive) as [z ->]. sims.
  scn (prel (prel (Shift.sim g) (Shift.sim 0)) (Shift.sim 0)). unfold hwma_step. rewrite !x_lit, !x_sub. sims.
Qed.
Lemma ssf_sh g l l' w t : (0 < w)%nat -> ss g l l' -> rrel (ss g) (ssf l w t) (ssf l' w t).
Proof.
  intros W H. unfold ssf. pose proof (INR_neq0 w W) as Wn.
  assert (Q : forall r, (0 <= r)%R -> fsqrt (Fin r) = Fin (sqrt r)) by (intros; now apply x_sqrt).
  change (@fpi xr XR) with (Fin PI). rewrite !x_lit, !x_nat, !Q by lra. rewrite !x_mul. rewrite !x_div by easy.
  rewrite !x_mul, !x_neg, !x_exp, !x_cos. do 4 rewrite ?x_mul, ?x_neg, ?x_add, ?x_sub.
  destruct (unwrap_or t false); sims.
  - scn (prel (prel (Shift.sim g) (Shift.sim g)) (Shift.sim g)). unfold ssf3_step. sims.
  - scn (prel (Shift.sim g) (Shift.sim g)). unfold ssf2_step. sims.
Qed.
Lemma wmean_fold_sh g rs l l' sa sb wa g1 : ss g l l' -> Shift.sim g1 sa sb -> (length l <= length rs)%nat ->
  prel (Shift.sim (g1 + Rsum (firstn (length l) rs) * g)) (fun x y => x = fadd wa (Fin (Rsum (firstn (length l) rs))) /\ y = x)
    (fold_left (fun '(s, sw) '(w, v) => (fadd s (fmul w v), fadd sw w)) (combine (map Fin rs) l) (sa, wa))
    (fold_left (fun '(s, sw) '(w, v) => (fadd s (fmul w v), fadd sw w)) (combine (map Fin rs) l') (sb, wa)).
Proof.
  intros H. revert rs sa sb wa g1. induction H as [|x y l l' H _ IH]; intros [|r rs] sa sb wa g1 S L; cbn in L; try lia; cbn [map combine fold_left length firstn];
    rewrite ?Rsum_cons, ?Rsum_nil.
  - split; cbn [fst snd]; [eapply s_conv; [exact S|ring]|]. split; [|easy]. destruct wa; cbn; try easy. f_equal. ring.
  - split; cbn [fst snd]; [eapply s_conv; [exact S|ring]|]. split; [|easy]. destruct wa; cbn; try easy. f_equal. ring.
  - destruct (IH rs (fadd sa (fmul (Fin r) x)) (fadd sb (fmul (Fin r) y)) (fadd wa (Fin r)) (g1 + r * g)%R) as [A [B C]]; [|lia|].
    + eapply s_add; [exact S| |reflexivity]. eapply s_kmul; [exact H|reflexivity|reflexivity].
    + split; [eapply s_conv; [exact A|ring]|]. split; [|exact C]. rewrite B. destruct wa; cbn; try easy. f_equal. ring.
Qed.
Lemma wmean_sh g rs l l' : ss g l l' -> (length l <= length rs)%nat -> Rsum (firstn (length l) rs) <> 0%R ->
  Shift.sim g (weighted_mean (map Fin rs) l) (weighted_mean (map Fin rs) l').
Proof.
  intros H L N. unfold weighted_mean. pose proof (wmean_fold_sh g rs l l' (flit 0 1) (flit 0 1) (flit 0 1) 0 H (s_same _) L) as F.
  revert F. generalize (fold_left (fun '(s, sw) '(w, v) => (fadd s (fmul w v), fadd sw w)) (combine (map Fin rs) l) (flit 0 1, flit 0 1)).
  generalize (fold_left (fun '(s, sw) '(w, v) => (fadd s (fmul w v), fadd sw w)) (combine (map Fin rs) l') (flit 0 1, flit 0 1)).
  intros [s' w'] [s w] [A [B C]]. cbn [fst snd] in *. subst w' w. rewrite x_lit, x_add.
  eapply s_divk; [exact A|reflexivity|lra|]. field. lra.
Qed.
Lemma kernel_sh g l l' s : s <> 0%R -> ss g l l' -> rrel (ss g) (kernel l (Fin s)) (kernel l' (Fin s)).
Proof.
  intros Hs H. unfold kernel.
  assert (K : kernel_weights (Fin s) = map Fin (map (fun k => exp (- (INR k ^ 2 / (2 * s ^ 2)))) (seq 0 256))).
  { unfold kernel_weights. rewrite map_map. apply map_ext. intros k.
    assert (2 * s * s <> 0)%R by (apply Rmult_integral_contrapositive; split; lra).
    rewrite !x_lit, x_mul, x_mul, x_div by easy. rewrite x_neg, x_nat, x_mul, x_exp. do 2 f_equal.
    rewrite mult_INR. field. easy. }
  rewrite K. apply r_ok. rewrite (f2_length _ _ _ H). apply f2_same. intros i Hi. apply in_seq in Hi.
  assert (L1 : length (firstn (Nat.min (i + 1) 255) (rev (firstn (i + 1) l))) = Nat.min (i + 1) 255).
  { rewrite firstn_length, rev_length, firstn_length. lia. }
  apply wmean_sh.
  - now apply f2_firstn, f2_rev, f2_firstn.
  - rewrite L1, map_length, seq_length. lia.
  - rewrite L1, firstn_map, firstn_seq'. apply Rgt_not_eq, Rsum_exp_pos.
    replace (Nat.min (Nat.min (i + 1) 255) 256) with (S (Nat.min i 254)) by lia. discriminate.
Qed.
Lemma alma_sh g l l' w s mu : s <> 0%R -> ss g l l' ->
  rrel (ss g) (alma l w (Fin s) (option_map Fin mu)) (alma l' w (Fin s) (option_map Fin mu)).
Proof.
  intros Hs H. unfold alma. eapply r_usub. intros Hw. apply r_ok. apply f2_app; [|sims].
  assert (Ec : exists c, fmul (unwrap_or (option_map Fin mu) (flit 85 100)) (fofnat (w - 1)) = Fin c).
  { rewrite x_nat. destruct mu; cbn [option_map unwrap_or]; eexists; [apply x_mul|]. rewrite x_frac, x_mul. reflexivity. }
  destruct Ec as [c ->].
  assert (K : alma_weights w (Fin s) (Fin c) = map Fin (map (fun k => exp (- ((INR k - c) ^ 2 / (2 * (INR w / s) ^ 2)))) (seq 0 w))).
  { unfold alma_weights. rewrite map_map. apply map_ext. intros k. assert (Hn : INR w <> 0%R) by (apply INR_neq0; lia).
    rewrite !x_nat, x_sub, x_div, !x_pow2, !x_lit, !x_mul by easy.
    assert (P : (0 < 2 * (INR w / s) ^ 2)%R).
    { apply Rmult_lt_0_compat; [lra|]. apply pow2_pos. unfold Rdiv.
      apply Rmult_integral_contrapositive. split; [easy|]. now apply Rinv_neq_0_compat. }
    rewrite x_div, x_exp by lra. do 2 f_equal. field. split; [easy|]. easy. }
  rewrite K, (f2_length _ _ _ H). apply f2_same. intros i _. apply wmean_sh.
  - apply f2_same. intros. now apply s_at.
  - now rewrite !map_length.
  - rewrite map_length, seq_length, firstn_all2 by (rewrite map_length, seq_length; lia).
    apply Rgt_not_eq, Rsum_exp_pos. destruct w; [lia|easy].
Qed.
