(** * ScaleRel: every function run in two systems of units. *)

From Coq Require Import Reals Lra Lia.
From Verif Require Import Base BaseFacts Num XReal XRFacts Scale.
From Verif Require Import Distribution Regression Smooth Correlation Volatility Volume Trend Momentum.
Local Unset Implicit Arguments.

Section ScaleRel.
  Variables c v : R.
  Hypotheses (Hc : (0 < c)%R) (Hv : (0 < v)%R).
  Local Notation sim := (Scale.sim c v).
  Local Notation ss d := (Forall2 (Scale.sim c v d)).

  Ltac brk := repeat match goal with
    | H : prel _ _ ?x ?y |- _ => destruct x, y; destruct H; cbn [fst snd] in *
    end.
  Ltac lens := repeat match goal with
    | |- context [length (map _ _)] => rewrite map_length
    | |- context [length (skipn _ _)] => rewrite skipn_length
    | H : Forall2 _ ?a ?a' |- context [length ?a'] =>
        tryif constr_eq a a' then fail else rewrite (f2_length _ _ _ H)
    end.
  Ltac dimeq := first [reflexivity | unfold dadd, dsub, d0, dp, dv, dpv; cbn [fst snd];
    repeat match goal with d : dim |- _ => destruct d end; cbn [fst snd]; f_equal; lia].
  Lemma b_if {A} (b b' : bool) (x y x' y' : A) : b' = b -> x' = x -> y' = y ->
    (if b' then x' else y') = (if b then x else y).
  Proof. now intros -> -> ->. Qed.
  Ltac hook0 := fail.
  Ltac hook1 := fail.
  Ltac hook2 := fail.
  Ltac hook3 := fail.
  Ltac hook4 := fail.
  Ltac hook5 := fail.
  Ltac hook6 := fail.
  Ltac hook7 := fail.
  Ltac hook8 := fail.
  Ltac hook9 := fail.
  Ltac hookA := fail.
  Ltac hookB := fail.
  Ltac hookC := fail.
  Ltac hookD := fail.
  Ltac one :=
    match goal with
    | H : Scale.sim c v _ ?a ?b |- Scale.sim c v _ ?a ?b => first [exact H | refine (s_conv c v _ _ _ _ H _); dimeq]
    | H : Forall2 _ ?a ?b |- Forall2 _ ?a ?b => exact H
    | H : orel _ ?a ?b |- orel _ ?a ?b => exact H
    | |- Scale.sim c v _ (flit 0 1) (flit 0 1) => apply s_zero
    | |- Scale.sim c v _ fnan fnan => apply s_nan
    | |- Scale.sim c v _ ?x ?x => first [apply s_same | eapply s_conv; [apply s_same | dimeq]]
    | |- Scale.sim c v _ (fadd _ _) _ => eapply s_add
    | |- Scale.sim c v _ (fsub _ _) _ => eapply s_sub
    | |- Scale.sim c v _ (fmul ?a _) (fmul ?a _) => eapply (s_mul_l c v Hc Hv)
    | |- Scale.sim c v _ (fmul _ ?b) (fmul _ ?b) => eapply (s_mul_r c v Hc Hv)
    | |- Scale.sim c v _ (fdiv _ ?b) (fdiv _ ?b) => eapply (s_div_r c v Hc Hv)
    | |- Scale.sim c v d0 (fdiv _ _) _ => eapply (s_ratio c v Hc Hv)
    | |- Scale.sim c v _ (fmul _ _) _ => eapply (s_mul c v Hc Hv)
    | |- Scale.sim c v _ (fdiv _ _) _ => eapply (s_div c v Hc Hv)
    | |- Scale.sim c v _ (fneg _) _ => eapply s_neg
    | |- Scale.sim c v _ (fabs _) _ => eapply (s_abs c v Hc Hv)
    | |- Scale.sim c v _ (fmax _ _) _ => eapply (s_max c v Hc Hv)
    | |- Scale.sim c v _ (fmin _ _) _ => eapply (s_min c v Hc Hv)
    | |- Scale.sim c v _ (fsqrt _) _ => eapply (s_sqrt c v Hc Hv)
    | |- Scale.sim c v _ (fsignum ?a) (fsignum ?b) =>
        let E := fresh in assert (E : fsignum b = fsignum a); [eapply (s_signum c v Hc Hv) | rewrite E]
    | |- Scale.sim c v _ (fln _) _ => eapply s_fun
    | |- Scale.sim c v _ (fexp _) _ => eapply s_fun
    | |- Scale.sim c v _ (flog10 _) _ => eapply s_fun
    | |- Scale.sim c v _ (flog2 _) _ => eapply s_fun
    | |- Scale.sim c v _ (fatan _) _ => eapply s_fun
    | |- Scale.sim c v _ (fcos _) _ => eapply s_fun
    | |- Scale.sim c v _ (fbool _) (fbool _) => unfold fbool; apply p_if
    | |- Scale.sim c v _ (powi2 _) _ => unfold powi2
    | |- Scale.sim c v _ (powi3 _) _ => unfold powi3
    | |- Scale.sim c v _ (powi4 _) _ => unfold powi4
    | |- Scale.sim c v _ (at_ _ _) _ => eapply s_at
    | |- Scale.sim c v _ (last_ _) _ => eapply s_last
    | |- Scale.sim c v _ (fsum _) _ => eapply s_fsum
    | |- Scale.sim c v _ (if _ then _ else _) _ => apply p_if
    | |- Scale.sim c v _ (unwrap_or _ _) _ => apply o_unwrap
    | |- Scale.sim c v ?d (fold_left _ _ _) (fold_left _ _ _) => eapply (f2_fold _ (Scale.sim c v d)); [| | intros]
    | |- fltb _ _ = fltb _ _ => eapply (s_ltb c v Hc Hv)
    | |- fgtb _ _ = fgtb _ _ => unfold fgtb; eapply (s_ltb c v Hc Hv)
    | |- fleb _ _ = fleb _ _ => eapply (s_leb c v Hc Hv)
    | |- fgeb _ _ = fgeb _ _ => unfold fgeb; eapply (s_leb c v Hc Hv)
    | |- feqb _ _ = feqb _ _ => eapply (s_eqb c v Hc Hv)
    | |- fneb _ _ = fneb _ _ => unfold fneb; f_equal
    | |- andb _ _ = andb _ _ => f_equal
    | |- orb _ _ = orb _ _ => f_equal
    | |- (if _ then _ else _) = (if _ then _ else _) => apply b_if
    | |- dadd _ _ = _ => dimeq
    | |- dsub _ _ = _ => dimeq
    | |- deven _ = _ => reflexivity
    | |- dhalf _ = _ => reflexivity
    | |- ?x = ?x => reflexivity
    | |- _ = d0 => dimeq
    | |- rrel _ (bind _ _) (bind _ _) => eapply r_bind; [| intros ? ? ?]
    | |- rrel _ (Ok _) (Ok _) => apply r_ok
    | |- rrel _ Panic Panic => apply r_panic
    | |- rrel _ (usub ?a ?b) (usub ?a ?b) => apply r_refl
    | |- rrel _ (umul ?a ?b) (umul ?a ?b) => apply r_refl
    | |- rrel _ (uadd ?a ?b) (uadd ?a ?b) => apply r_refl
    | |- rrel _ (usubN ?a ?b) (usubN ?a ?b) => apply r_refl
    | |- rrel _ (idx _ _) _ => eapply r_idx
    | |- rrel _ (slice_to _ _) _ => eapply r_slice_to
    | |- rrel _ (slice_from _ _) _ => eapply r_slice_from
    | |- rrel _ (slice _ _ _) _ => eapply r_slice
    | |- rrel _ (rwindows _ _) _ => eapply r_rwindows
    | |- rrel _ (if _ then _ else _) _ => apply r_if
    | |- rrel _ (rmap _ _) _ => eapply r_rmap; [| intros ? ? ?]
    | |- Forall2 _ ?x ?x => first [apply f2_refl | apply f2_scaled; now rewrite unit_0, scaled_1]
    | |- Forall2 _ (_ ++ _) _ => eapply f2_app
    | |- Forall2 _ (_ :: _) _ => constructor
    | |- Forall2 _ [] [] => constructor
    | |- Forall2 _ (pad _ _) _ => apply f2_repeat
    | |- Forall2 _ (repeat _ _) _ => apply f2_repeat
    | |- Forall2 _ (map _ _) _ => eapply f2_map; [| intros ? ? ?]
    | |- Forall2 _ (zip2 _ _) _ => unfold zip2
    | |- Forall2 _ (zip3 _ _ _) _ => unfold zip3
    | |- Forall2 _ (zip4 _ _ _ _) _ => unfold zip4
    | |- Forall2 _ (zip5 _ _ _ _ _) _ => unfold zip5
    | |- Forall2 _ (zip6 _ _ _ _ _ _) _ => unfold zip6
    | |- Forall2 _ (combine _ _) _ => eapply f2_combine
    | |- Forall2 _ (skipn _ _) _ => eapply f2_skipn
    | |- Forall2 _ (firstn _ _) _ => eapply f2_firstn
    | |- Forall2 _ (rev _) _ => eapply f2_rev
    | |- Forall2 _ (windows _ _) _ => eapply f2_windows
    | |- Forall2 _ (enumerate _) _ => eapply f2_enumerate
    | |- Forall2 _ (seq _ _) (seq _ _) => apply f2_refl
    | |- Forall2 _ (upd _ _ _) (upd _ _ _) => apply f2_upd
    | |- prel _ _ (_, _) (_, _) => split; cbn [fst snd]
    | |- ?R ?a _ => is_evar R; match type of a with
        | xr => let S := open_constr:(Scale.sim c v _) in unify R S
        | prod _ _ => let S := open_constr:(prel _ _) in unify R S
        end
    | _ => first [hook0 | hook1 | hook2 | hook3 | hook4 | hook5 | hook6 | hook7 | hook8 | hook9 | hookA | hookB | hookC | hookD]
    end.
  Ltac go := brk; cbv beta zeta; subst; lens; try one.
  Ltac sims0 := repeat (progress go || (cbn [fst snd])).
  Ltac sims := sims0; sims0.

  (** *** smooth.rs *)

  Ltac scn U := eapply (f2_scan _ _ U); [sims|sims|intros; brk].
  Ltac call L := eapply r_bind; [eapply L; sims | intros ? ? ?].
  Ltac same := apply r_refl || apply f2_refl.
  (** two folds over related lists *)
  Ltac folds R :=
    match goal with |- context [fold_left ?f ?x ?z] =>
      match goal with |- context [fold_left ?f' ?y ?z'] => tryif constr_eq (fold_left f x z) (fold_left f' y z') then fail else
      let E := fresh "E" in
      assert (E : R (fold_left f x z) (fold_left f' y z')); [eapply f2_fold; [sims|sims|intros; brk; subst]
      | revert E; generalize (fold_left f x z) (fold_left f' y z'); intros; brk] end end.

  Lemma ewma_rel d l l' w : ss d l l' -> rrel (ss d) (ewma l w) (ewma l' w).
  Proof. intros H. unfold ewma. sims. scn (sim d). unfold ewma_step. sims. Qed.
  Lemma sma_rel d l l' w : ss d l l' -> rrel (ss d) (sma l w) (sma l' w).
  Proof. intros H. unfold sma. sims. unfold sma_win. sims. Qed.
  Lemma dot_rel d ws l l' : ss d l l' -> sim d (dot ws l) (dot ws l').
  Proof. intros H. unfold dot. sims. Qed.
  Lemma wilder_rel d l l' w : ss d l l' -> rrel (ss d) (wilder l w) (wilder l' w).
  Proof. intros H. unfold wilder. sims. scn (sim d). unfold wilder_step. sims. Qed.
  Lemma sum_dev2_rel d m m' l l' : sim d m m' -> ss d l l' -> sim (dadd d d) (sum_dev2 m l) (sum_dev2 m' l').
  Proof. intros. unfold sum_dev2. eapply f2_fold; [sims|sims|]. intros. sims. Qed.
  Lemma win_mean_rel d w l l' : ss d l l' -> sim d (win_mean w l) (win_mean w l').
  Proof. intros. unfold win_mean. sims. Qed.
  Ltac hook0 ::= match goal with
    | |- rrel _ (ewma _ _) _ => eapply ewma_rel
    | |- rrel _ (sma _ _) _ => eapply sma_rel
    | |- rrel _ (wilder _ _) _ => eapply wilder_rel
    | |- Scale.sim c v _ (dot ?a _) (dot ?a _) => eapply dot_rel
    | |- Scale.sim c v _ (sum_dev2 _ _) _ => eapply s_conv; [eapply sum_dev2_rel|]
    | |- Scale.sim c v _ (win_mean _ _) _ => eapply win_mean_rel
    | |- rrel _ (wma_weights ?a) (wma_weights ?a) => apply r_refl
    end.
  Lemma std_dev_raw_rel d l l' w : ss d l l' -> rrel (ss d) (std_dev_raw l w) (std_dev_raw l' w).
  Proof.
    intros H. unfold std_dev_raw. sims. unfold std_dev_win. cbv zeta. eapply (s_sqrt c v Hc Hv (dadd d d)); sims.
    - unfold deven, dadd. cbn [fst snd]. rewrite !Z.add_diag, !Z.even_mul. reflexivity.
    - unfold dhalf, dadd. cbn [fst snd]. destruct d as [p q]. cbn [fst snd]. rewrite !Z.add_diag, !(Z.mul_comm 2), !Z.div_mul by lia. easy.
  Qed.
  Ltac hook1 ::= match goal with |- rrel _ (std_dev_raw _ _) _ => eapply std_dev_raw_rel end.
  Lemma std_dev_rel d l l' w : ss d l l' -> rrel (ss d) (std_dev l w) (std_dev l' w).
  Proof. intros H. unfold std_dev. sims. Qed.

  Lemma dema_rel d l l' w : ss d l l' -> rrel (ss d) (dema l w) (dema l' w).
  Proof. intros H. unfold dema. sims. Qed.
  Lemma tema_rel d l l' w : ss d l l' -> rrel (ss d) (tema l w) (tema l' w).
  Proof. intros H. unfold tema. sims. Qed.
  Lemma wma_rel d l l' w : ss d l l' -> rrel (ss d) (wma l w) (wma l' w).
  Proof. intros H. unfold wma. sims. Qed.
  Lemma pwma_rel d l l' w : ss d l l' -> rrel (ss d) (pwma l w) (pwma l' w).
  Proof. intros H. unfold pwma. eapply r_bind; [apply r_refl|intros [] ? <-]. sims. Qed.
  Lemma hull_rel d l l' w : ss d l l' -> rrel (ss d) (hull l w) (hull l' w).
  Proof.
    intros H. unfold hull. call wma_rel. call wma_rel. apply wma_rel. sims.
  Qed.
  Lemma lrf_rel d l l' w : ss d l l' -> rrel (ss d) (lrf l w) (lrf l' w).
  Proof. intros H. unfold lrf. sims. unfold lrf_win. folds (prel (sim d) (sim d)); sims. Qed.
  Lemma trima_rel d l l' w : ss d l l' -> rrel (ss d) (trima l w) (trima l' w).
  Proof. intros H. unfold trima. sims. Qed.
  Lemma zlma_rel d l l' w : ss d l l' -> rrel (ss d) (zlma l w) (zlma l' w).
  Proof. intros H. unfold zlma. sims. Qed.
  Lemma vidya_rel d l l' w : ss d l l' -> rrel (ss d) (vidya l w) (vidya l' w).
  Proof.
    intros H. unfold vidya. sims. scn (sim d). unfold vidya_step. sims.
  Qed.
  Lemma s_nth1 d e i (a a' : list (xr * xr)) : Forall2 (prel (sim d) (sim e)) a a' ->
    sim d (fst (nth i a (fnan, fnan))) (fst (nth i a' (fnan, fnan))).
  Proof. intros H. eapply (f2_nth (prel (sim d) (sim e))); [exact H|split; apply s_nan]. Qed.
  Lemma s_nth2 d e i (a a' : list (xr * xr)) : Forall2 (prel (sim d) (sim e)) a a' ->
    sim e (snd (nth i a (fnan, fnan))) (snd (nth i a' (fnan, fnan))).
  Proof. intros H. eapply (f2_nth (prel (sim d) (sim e))); [exact H|split; apply s_nan]. Qed.
  Lemma cmo_raw_rel d l l' w : ss d l l' -> ss d0 (cmo_raw l w) (cmo_raw l' w).
  Proof.
    intros H. unfold cmo_raw. eapply f2_map; [apply f2_windows with (R := prel (sim d) (sim d))|intros a a' Ha].
    - unfold cmo_cum. constructor; [sims|]. scn (prel (sim d) (sim d)). sims.
    - unfold cmo_win. lens. cbv zeta.
      sims; eapply s_nth1 || eapply s_nth2; exact Ha.
  Qed.
  Ltac hook2 ::= match goal with
    | |- Forall2 _ (cmo_raw _ _) _ => eapply cmo_raw_rel
    | |- rrel _ (std_dev _ _) _ => eapply std_dev_rel
    | |- rrel _ (wma _ _) _ => eapply wma_rel
    | |- rrel _ (lrf _ _) _ => eapply lrf_rel
    end.
  Lemma vma_rel d l l' w : ss d l l' -> rrel (ss d) (vma l w) (vma l' w).
  Proof.
    intros H. unfold vma. sims. scn (sim d). unfold vma_step. sims.
  Qed.
  Lemma ma_rel d l l' w m : ss d l l' -> rrel (ss d) (ma l w m) (ma l' w m).
  Proof.
    destruct m; cbn [ma].
    - apply sma_rel. - apply ewma_rel. - apply dema_rel. - apply tema_rel. - apply wma_rel. - apply hull_rel. - apply lrf_rel.
    - apply pwma_rel. - apply trima_rel. - apply vma_rel. - apply vidya_rel. - apply wilder_rel. - apply zlma_rel.
  Qed.

  Lemma weighted_mean_rel d ws l l' : ss d l l' -> sim d (weighted_mean ws l) (weighted_mean ws l').
  Proof. intros H. unfold weighted_mean. folds (prel (sim d) (sim d0)); sims. Qed.
  Lemma kernel_rel d l l' s : ss d l l' -> rrel (ss d) (kernel l s) (kernel l' s).
  Proof.
    intros H. unfold kernel. sims. eapply weighted_mean_rel. sims.
  Qed.
  Lemma kama_rel d l l' w sh lo : ss d l l' -> rrel (ss d) (kama l w sh lo) (kama l' w sh lo).
  Proof.
    intros H. unfold kama. sims. scn (sim d). unfold kama_step. sims.
  Qed.
  Lemma alma_rel d l l' w sg mu : ss d l l' -> rrel (ss d) (alma l w sg mu) (alma l' w sg mu).
  Proof. intros H. unfold alma. sims. eapply weighted_mean_rel. sims. Qed.
  Lemma mdma_rel d l l' w : ss d l l' -> rrel (ss d) (mdma l w) (mdma l' w).
  Proof. intros H. unfold mdma. sims. scn (sim d). unfold mdma_step. sims. Qed.
  Lemma hwma_rel d l l' a b g : ss d l l' -> rrel (ss d) (hwma l a b g) (hwma l' a b g).
  Proof. intros H. unfold hwma. sims. scn (prel (prel (sim d) (sim d)) (sim d)). unfold hwma_step. sims. Qed.
  Lemma fwma_rel d l l' w : ss d l l' -> rrel (ss d) (fwma l w) (fwma l' w).
  Proof. intros H. unfold fwma. sims. Qed.
  Lemma ssf_rel d l l' w t : ss d l l' -> rrel (ss d) (ssf l w t) (ssf l' w t).
  Proof.
    intros H. unfold ssf. sims.
    - scn (prel (prel (sim d) (sim d)) (sim d)). unfold ssf3_step. sims.
    - scn (prel (sim d) (sim d)). unfold ssf2_step. sims.
  Qed.
  Lemma t3_rel d l l' w f : ss d l l' -> rrel (ss d) (t3 l w f) (t3 l' w f).
  Proof. intros H. unfold t3. sims. Qed.

  (** *** distribution.rs *)
  Lemma variance_rel d l l' w : ss d l l' -> rrel (ss (dadd d d)) (variance l w) (variance l' w).
  Proof. intros H. unfold variance. sims. unfold variance_win. sims. Qed.
  Lemma mad_rel d l l' w : ss d l l' -> rrel (ss d) (mad l w) (mad l' w).
  Proof. intros H. unfold mad. sims. unfold mad_win. sims. Qed.
  Lemma zscore_rel l l' w : ss dp l l' -> rrel (ss d0) (zscore l w) (zscore l' w).
  Proof. intros H. unfold zscore. sims. unfold zscore_win. sims. Qed.
  Lemma cv_rel l l' w : ss dp l l' -> rrel (ss d0) (cv l w) (cv l' w).
  Proof. intros H. unfold cv. sims. unfold cv_win. sims. Qed.
  Lemma kurtosis_rel l l' w : ss dp l l' -> rrel (ss d0) (kurtosis l w) (kurtosis l' w).
  Proof.
    intros H. unfold kurtosis. sims. unfold kurtosis_win. sims.
  Qed.

  Ltac hook3 ::= match goal with
    | |- rrel _ (ma _ _ _) _ => eapply ma_rel
    end.

  (** *** volatility.rs *)
  Lemma max_of_rel d l l' : ss d l l' -> sim d (max_of l) (max_of l').
  Proof. intros. unfold max_of. sims. Qed.
  Lemma min_of_rel d l l' : ss d l l' -> sim d (min_of l) (min_of l').
  Proof. intros. unfold min_of. sims. Qed.
  Lemma true_range_rel h h' l l' cl cl' : ss dp h h' -> ss dp l l' -> ss dp cl cl' ->
    rrel (ss dp) (true_range h l cl) (true_range h' l' cl').
  Proof. intros. unfold true_range. sims. unfold tr_bar. sims. Qed.
  Ltac hook4 ::= match goal with
    | |- Scale.sim c v _ (max_of _) _ => eapply max_of_rel
    | |- Scale.sim c v _ (min_of _) _ => eapply min_of_rel
    | |- rrel _ (true_range _ _ _) _ => eapply true_range_rel
    end.
  Lemma tr_rel h h' l l' cl cl' : ss dp h h' -> ss dp l l' -> ss dp cl cl' ->
    rrel (ss dp) (tr h l cl) (tr h' l' cl').
  Proof. intros. unfold tr. sims. Qed.
  Lemma atr_rel h h' l l' cl cl' w : ss dp h h' -> ss dp l l' -> ss dp cl cl' ->
    rrel (ss dp) (atr h l cl w) (atr h' l' cl' w).
  Proof. intros. unfold atr. sims. Qed.
  Ltac hook5 ::= match goal with
    | |- rrel _ (atr _ _ _ _) _ => eapply atr_rel
    end.
  Lemma mass_rel h h' l l' s w : ss dp h h' -> ss dp l l' ->
    rrel (ss d0) (mass h l s w) (mass h' l' s w).
  Proof. intros. unfold mass, hl_range. sims.
  Qed.
  Lemma keltner_rel h h' l l' cl cl' w : ss dp h h' -> ss dp l l' -> ss dp cl cl' ->
    rrel (Forall2 (prel (prel (sim dp) (sim dp)) (sim dp))) (keltner h l cl w) (keltner h' l' cl' w).
  Proof. intros. unfold keltner. sims. Qed.
  Lemma hlc3_rel h h' l l' cl cl' : ss dp h h' -> ss dp l l' -> ss dp cl cl' -> ss dp (hlc3 h l cl) (hlc3 h' l' cl').
  Proof. intros. unfold hlc3. sims. Qed.
  Lemma typical_rel h h' l l' cl cl' w : ss dp h h' -> ss dp l l' -> ss dp cl cl' ->
    rrel (ss dp) (typical h l cl w) (typical h' l' cl' w).
  Proof. intros. unfold typical. sims. now apply hlc3_rel. Qed.
  Lemma vstd_dev_rel d l l' w s : ss d l l' -> rrel (ss d) (vstd_dev l w s) (vstd_dev l' w s).
  Proof. intros. unfold vstd_dev. sims. Qed.
  Ltac hook6 ::= match goal with
    | |- rrel _ (vstd_dev _ _ _) _ => eapply vstd_dev_rel
    | |- Forall2 _ (hlc3 _ _ _) _ => eapply hlc3_rel
    end.
  Lemma bbands_rel d l l' w s m : ss d l l' ->
    rrel (Forall2 (prel (prel (sim d) (sim d)) (sim d))) (bbands l w s m) (bbands l' w s m).
  Proof. intros. unfold bbands. sims. Qed.
  Lemma donchian_rel h h' l l' w : ss dp h h' -> ss dp l l' ->
    rrel (Forall2 (prel (prel (sim dp) (sim dp)) (sim dp))) (donchian h l w) (donchian h' l' w).
  Proof. intros. unfold donchian. sims. unfold donchian_win. sims. Qed.
  Lemma arg_first_rel d (bt : xr -> xr -> bool) l l' :
    (forall a a' b b', sim d a a' -> sim d b b' -> bt a' b' = bt a b) ->
    ss d l l' -> arg_first bt l' = arg_first bt l.
  Proof.
    intros B H. unfold arg_first. symmetry.
    apply (f2_fold (prel eq (sim d)) (prel eq (sim d))); [now apply f2_enumerate|split; [easy|now apply s_at]|].
    intros. brk. subst. apply p_if; sims. now apply B.
  Qed.
  Lemma fbands_rel h h' l l' : ss dp h h' -> ss dp l l' ->
    Forall2 (prel (sim dp) (sim dp)) (fbands h l) (fbands h' l').
  Proof.
    intros. unfold fbands. sims. scn (prel (sim dp) (sim dp)). unfold fbands_step. cbv zeta. cbn [fst snd].
    assert (E1 : forall a a', ss dp a a' -> arg_first fgtb a' = arg_first fgtb a).
    { intros. apply (arg_first_rel dp); [|easy]. intros. unfold fgtb. now apply (s_ltb c v Hc Hv dp). }
    assert (E2 : forall a a', ss dp a a' -> arg_first fltb a' = arg_first fltb a).
    { intros. apply (arg_first_rel dp); [|easy]. intros. now apply (s_ltb c v Hc Hv dp). }
    match goal with H : ss dp ?a ?a', H' : ss dp ?b ?b' |- context [arg_first fgtb ?a'] => rewrite (E1 a a' H) end.
    match goal with H : ss dp ?a ?a' |- context [arg_first fltb ?a'] => rewrite (E2 a a' H) end.
    sims.
  Qed.
  Lemma log_returns_rel d l l' : ss d l l' -> ss d0 (log_returns l) (log_returns l').
  Proof. intros. unfold log_returns. sims. Qed.
  Lemma hv_rel d l l' w s : ss d l l' -> rrel (ss d0) (hv l w s) (hv l' w s).
  Proof.
    intros H. unfold hv. rewrite (f2_same0 c v _ _ (log_returns_rel d l l' H)). apply (r_list0 c v).
  Qed.
  Lemma starc_rel h h' l l' cl cl' w mw m : ss dp h h' -> ss dp l l' -> ss dp cl cl' ->
    rrel (Forall2 (prel (sim dp) (sim dp))) (starc h l cl w mw m) (starc h' l' cl' w mw m).
  Proof. intros. unfold starc. sims. Qed.
  Lemma cvi_rel h h' l l' w r : ss dp h h' -> ss dp l l' -> rrel (ss d0) (cvi h l w r) (cvi h' l' w r).
  Proof. intros. unfold cvi, hl_range. sims. Qed.
  Lemma relative_vol_rel l l' w s : ss dp l l' -> rrel (ss d0) (relative_vol l w s) (relative_vol l' w s).
  Proof.
    intros. unfold relative_vol. eapply (r_bind (Forall2 (prel (sim dp) (sim dp)))).
    - unfold rel_vol_pairs. sims.
    - intros. sims.
  Qed.
  Lemma inertia_rel l l' w s : ss dp l l' -> rrel (ss d0) (inertia l w s) (inertia l' w s).
  Proof. intros. unfold inertia. eapply r_bind; [apply relative_vol_rel; eassumption|intros]. sims. Qed.
  Lemma chop_rel h h' l l' cl cl' w : ss dp h h' -> ss dp l l' -> ss dp cl cl' ->
    rrel (ss d0) (chop h l cl w) (chop h' l' cl' w).
  Proof. intros. unfold chop. sims. Qed.
  Lemma vhf_rel h h' l l' cl cl' w : ss dp h h' -> ss dp l l' -> ss dp cl cl' ->
    rrel (ss d0) (vhf h l cl w) (vhf h' l' cl' w).
  Proof. intros. unfold vhf, abs_diffs. sims. Qed.
  Lemma heikin_ashi_rel o o' h h' l l' cl cl' : ss dp o o' -> ss dp h h' -> ss dp l l' -> ss dp cl cl' ->
    rrel (Forall2 (prel (prel (prel (sim dp) (sim dp)) (sim dp)) (sim dp))) (heikin_ashi o h l cl) (heikin_ashi o' h' l' cl').
  Proof. intros. unfold heikin_ashi. sims. scn (prel (sim dp) (sim dp)). unfold ha_step. sims. Qed.
  Lemma wcp_rel h h' l l' cl cl' : ss dp h h' -> ss dp l l' -> ss dp cl cl' -> ss dp (wcp h l cl) (wcp h' l' cl').
  Proof. intros. unfold wcp. sims. Qed.
  Lemma cc_hv_rel d l l' w : ss d l l' -> rrel (ss d0) (cc_hv l w) (cc_hv l' w).
  Proof.
    intros. unfold cc_hv. sims. unfold annual_win. sims.
  Qed.
  Lemma gkyz_hv_rel o o' h h' l l' cl cl' w : ss dp o o' -> ss dp h h' -> ss dp l l' -> ss dp cl cl' ->
    rrel (ss d0) (gkyz_hv o h l cl w) (gkyz_hv o' h' l' cl' w).
  Proof.
    intros. unfold gkyz_hv, gkyz_bar, annual_win. sims.
  Qed.

  (** *** volume.rs *)
  Local Notation sp := (sim dp).
  Local Notation sv := (sim dv).
  Local Notation P2 a b := (prel (sim a) (sim b)).
  Lemma tail4_rel h h' l l' cl cl' vo vo' : ss dp h h' -> ss dp l l' -> ss dp cl cl' -> ss dv vo vo' ->
    rrel (Forall2 (prel (prel (prel sp sp) sp) sv)) (tail4 h l cl vo) (tail4 h' l' cl' vo').
  Proof. intros. unfold tail4. sims. Qed.
  Lemma steps3_rel cl cl' vo vo' : ss dp cl cl' -> ss dv vo vo' ->
    rrel (Forall2 (prel (prel sp sp) sv)) (steps3 cl vo) (steps3 cl' vo').
  Proof. intros. unfold steps3. sims. Qed.
  Ltac hook7 ::= match goal with
    | |- rrel _ (tail4 _ _ _ _) _ => eapply tail4_rel
    | |- rrel _ (steps3 _ _) _ => eapply steps3_rel
    end.
  Lemma vforce_rel h h' l l' cl cl' vo vo' : ss dp h h' -> ss dp l l' -> ss dp cl cl' -> ss dv vo vo' ->
    rrel (ss dv) (vforce h l cl vo) (vforce h' l' cl' vo').
  Proof.
    intros. unfold vforce. sims. scn (prel (prel (prel (prel (prel sp sp) sp) (sim d0)) sp) sp).
    unfold vforce_step. sims.
  Qed.
  Lemma vforce_alt_rel h h' l l' cl cl' vo vo' : ss dp h h' -> ss dp l l' -> ss dp cl cl' -> ss dv vo vo' ->
    rrel (ss dv) (vforce_alt h l cl vo) (vforce_alt h' l' cl' vo').
  Proof.
    intros. unfold vforce_alt. sims. scn (prel (prel sp sp) sp). unfold vforce_alt_step. sims.
  Qed.
  Lemma kvo_rel h h' l l' cl cl' vo vo' s w alt : ss dp h h' -> ss dp l l' -> ss dp cl cl' -> ss dv vo vo' ->
    rrel (ss dv) (kvo h l cl vo s w alt) (kvo h' l' cl' vo' s w alt).
  Proof.
    intros. unfold kvo. eapply (r_bind (ss dv)).
    - apply r_if; [easy|now apply vforce_alt_rel|now apply vforce_rel].
    - intros. sims.
  Qed.
  Lemma wilder_sum_rel d l l' w : ss d l l' -> rrel (ss d) (wilder_sum l w) (wilder_sum l' w).
  Proof. intros. unfold wilder_sum. sims. scn (sim d). unfold wilder_sum_step. sims. Qed.
  Lemma twiggs_rel h h' l l' cl cl' vo vo' w : ss dp h h' -> ss dp l l' -> ss dp cl cl' -> ss dv vo vo' ->
    rrel (ss d0) (twiggs h l cl vo w) (twiggs h' l' cl' vo' w).
  Proof.
    intros. unfold twiggs. eapply r_bind; [apply tail4_rel; eassumption|intros]. eapply (r_bind sp); [sims|intros].
    eapply (r_bind (ss dv)).
    { eapply wilder_sum_rel. scn (sim dp). unfold twiggs_step. sims. }
    intros. eapply (r_bind (ss dv)); [sims|intros]. eapply (r_bind (ss dv)); [apply wilder_sum_rel; sims|intros]. sims.
  Qed.
  Lemma ad_rel h h' l l' cl cl' vo vo' : ss dp h h' -> ss dp l l' -> ss dp cl cl' -> ss dv vo vo' ->
    rrel (ss dv) (ad h l cl vo None) (ad h' l' cl' vo' None).
  Proof. intros. unfold ad. cbn [unwrap_or negb]. sims. scn (sim dv). unfold ad_step. sims. Qed.
  Lemma ad_alt_rel h h' l l' cl cl' vo vo' : ss dp h h' -> ss dp l l' -> ss dp cl cl' -> ss dv vo vo' ->
    rrel (ss dpv) (ad h l cl vo (Some true)) (ad h' l' cl' vo' (Some true)).
  Proof. intros. unfold ad. cbn [unwrap_or negb]. sims. scn (prel sp (sim dpv)). unfold ad_alt_step. sims. Qed.
  Lemma elder_force_rel cl cl' vo vo' w : ss dp cl cl' -> ss dv vo vo' ->
    rrel (ss dpv) (elder_force cl vo w) (elder_force cl' vo' w).
  Proof. intros. unfold elder_force. sims. Qed.
  Lemma mfi_rel h h' l l' cl cl' vo vo' w : ss dp h h' -> ss dp l l' -> ss dp cl cl' -> ss dv vo vo' ->
    rrel (ss d0) (mfi h l cl vo w) (mfi h' l' cl' vo' w).
  Proof.
    intros. unfold mfi. eapply r_bind; [apply tail4_rel; eassumption|intros]. do 3 (eapply (r_bind sp); [sims|intros]). cbv zeta.
    match goal with |- context [scan mfi_step ?x ?y] => match goal with |- context [scan mfi_step ?x' ?y'] =>
      tryif constr_eq y y' then fail else
      assert (E : Forall2 (P2 dpv dpv) (scan mfi_step x y) (scan mfi_step x' y')) end end.
    { scn (sim dp). unfold mfi_step. sims. }
    revert E. generalize (scan mfi_step). intros. unfold mfi_win.
    eapply (r_bind (Forall2 (ss dpv))); [sims|intros]. eapply (r_bind (Forall2 (ss dpv))); [sims|intros]. sims.
  Qed.
  Lemma cmf_rel h h' l l' cl cl' vo vo' w : ss dp h h' -> ss dp l l' -> ss dp cl cl' -> ss dv vo vo' ->
    rrel (ss d0) (cmf h l cl vo w) (cmf h' l' cl' vo' w).
  Proof. intros. unfold cmf, cmf_bar. sims. Qed.
  Lemma tvi_rel cl cl' vo vo' t t' : ss dp cl cl' -> ss dv vo vo' -> sim dp t t' ->
    rrel (ss dv) (tvi cl vo t) (tvi cl' vo' t').
  Proof.
    intros. unfold tvi. sims. scn (prel (@eq bool) (sim dv)). subst. unfold tvi_step. cbv zeta.
    assert (E : forall a a' b b', sp a a' -> sp b b' -> fgtb (fsub a' b') t' = fgtb (fsub a b) t) by (intros; sims).
    repeat match goal with Ha : sim dp ?a ?a', Hb : sim dp ?b ?b' |- context [fgtb (fsub ?a' ?b') t'] =>
      rewrite (E _ _ _ _ Ha Hb) end. sims.
  Qed.
  Lemma ease_rel h h' l l' vo vo' w : ss dp h h' -> ss dp l l' -> ss dv vo vo' ->
    rrel (ss (2, -1)%Z) (ease h l vo w) (ease h' l' vo' w).
  Proof. intros. unfold ease, ease_bar. sims. Qed.
  Lemma obv_rel cl cl' vo vo' : ss dp cl cl' -> ss dv vo vo' -> rrel (ss dv) (obv cl vo) (obv cl' vo').
  Proof.
    intros. unfold obv. eapply (r_bind (ss dv)); [|intros; sims]. eapply (r_scan (prel eq (ss dp)) _ sv); [sims|sims|].
    intros. brk. subst. unfold obv_step. sims.
  Qed.
  Lemma bw_mfi_rel h h' l l' vo vo' : ss dp h h' -> ss dp l l' -> ss dv vo vo' ->
    ss (1, -1)%Z (bw_mfi h l vo) (bw_mfi h' l' vo').
  Proof. intros. unfold bw_mfi. sims. Qed.
  Lemma pvi_rel l l' vo vo' : ss dp l l' -> ss dv vo vo' -> ss d0 (pvi l vo) (pvi l' vo').
  Proof. intros. unfold pvi. sims. scn (sim d0). unfold vi_step. sims. Qed.
  Lemma nvi_rel l l' vo vo' : ss dp l l' -> ss dv vo vo' -> ss d0 (nvi l vo) (nvi l' vo').
  Proof. intros. unfold nvi. sims. scn (sim d0). unfold vi_step. sims. Qed.
  Lemma vwap_rel h h' l l' cl cl' vo vo' r : ss dp h h' -> ss dp l l' -> ss dp cl cl' -> ss dv vo vo' ->
    rrel (ss dp) (vwap h l cl vo r) (vwap h' l' cl' vo' r).
  Proof.
    intros. unfold vwap. lens. eapply (r_scan (prel eq (prel (prel (prel sp sp) sp) sv)) _ (prel (P2 dpv dv) eq)); [sims|sims|].
    intros. brk. subst. unfold vwap_step. eapply r_bind; [apply r_refl|intros ? ? <-].
    destruct (_ =? _)%nat; sims.
  Qed.
  Lemma vwma_rel l l' vo vo' w : ss dp l l' -> ss dv vo vo' -> rrel (ss dp) (vwma l vo w) (vwma l' vo' w).
  Proof. intros. unfold vwma. sims. unfold vwma_win. sims. Qed.
  Lemma vpt_rel l l' vo vo' : ss dp l l' -> ss dv vo vo' -> rrel (ss dv) (vpt l vo) (vpt l' vo').
  Proof. intros. unfold vpt. sims. scn (sim dv). unfold vpt_step. sims. Qed.

  (** *** regression.rs *)
  Lemma obs_est_rel a a' b b' : ss dp a a' -> ss dp b b' -> Forall2 (prel (prel eq sp) sp) (obs_est a b) (obs_est a' b').
  Proof. intros. unfold obs_est. sims. Qed.
  Ltac hook8 ::= match goal with
    | |- Forall2 _ (obs_est _ _) _ => eapply obs_est_rel
    end.
  Lemma mse_rel a a' b b' : ss dp a a' -> ss dp b b' -> ss (2, 0)%Z (mse a b) (mse a' b').
  Proof. intros. unfold mse. scn (sim (2, 0)%Z). sims. Qed.
  Lemma rmse_rel a a' b b' : ss dp a a' -> ss dp b b' -> ss dp (rmse a b) (rmse a' b').
  Proof. intros. unfold rmse. scn (sim (2, 0)%Z). sims. Qed.
  Lemma mae_rel a a' b b' : ss dp a a' -> ss dp b b' -> ss dp (mae a b) (mae a' b').
  Proof. intros. unfold mae. scn (sim dp). sims. Qed.
  Lemma mape_rel a a' b b' : ss dp a a' -> ss dp b b' -> ss d0 (mape a b) (mape a' b').
  Proof. intros. unfold mape. scn (sim d0). sims. Qed.
  Lemma smape_rel a a' b b' : ss dp a a' -> ss dp b b' -> ss d0 (smape a b) (smape a' b').
  Proof. intros. unfold smape. scn (sim d0). sims. Qed.
  Lemma mda_rel a a' b b' : ss dp a a' -> ss dp b b' -> rrel (ss d0) (mda a b) (mda a' b').
  Proof.
    intros. unfold mda. sims. scn (prel (sim d0) (sim dp)). sims.
  Qed.
  Lemma zip_i32_rel {A A'} (R : A -> A' -> Prop) l l' : Forall2 R l l' ->
    rrel (Forall2 (prel R eq)) (zip_i32 l) (zip_i32 l').
  Proof. intros. unfold zip_i32. lens. apply r_if; [easy| |easy]. sims. Qed.
  Lemma mase_rel a a' b b' : ss dp a a' -> ss dp b b' -> rrel (ss d0) (mase a b) (mase a' b').
  Proof.
    intros Ha Hb. unfold mase. pose proof (mae_rel _ _ _ _ Ha Hb). cbv zeta.
    eapply (r_bind (Forall2 (prel (ss dp) eq))).
    - rewrite !skipn_length. lens. eapply zip_i32_rel. sims.
    - intros. assert (E : forall x x', Forall2 (prel (ss dp) (@eq nat)) x x' ->
        ss dp (scan (fun state '(w, cnt) => let state' := fadd state (fabs (fsub (at_ w 1) (at_ w 0))) in (state', fdiv state' (fofnat cnt))) (flit 0 1) x)
              (scan (fun state '(w, cnt) => let state' := fadd state (fabs (fsub (at_ w 1) (at_ w 0))) in (state', fdiv state' (fofnat cnt))) (flit 0 1) x')).
      { intros. scn (sim dp). sims. }
      apply E in H0. sims.
  Qed.
  Lemma emae_rel a a' b b' : ss dp a a' -> ss dp b b' -> rrel (ss d0) (emae a b) (emae a' b').
  Proof.
    intros Ha Hb. unfold emae. eapply (r_bind (Forall2 (prel (prel sp sp) eq))); [apply zip_i32_rel; sims|].
    intros. sims. scn (prel (sim dp) (sim dp)). sims.
  Qed.

  (** *** trend.rs *)
  Lemma swing_rel o o' h h' l l' cl cl' t t' : ss dp o o' -> ss dp h h' -> ss dp l l' -> ss dp cl cl' -> sim dp t t' ->
    rrel (ss d0) (swing o h l cl t) (swing o' h' l' cl' t').
  Proof. intros. unfold swing, swing_bar. sims. Qed.
  Lemma shinohara_rel h h' l l' cl cl' w : ss dp h h' -> ss dp l l' -> ss dp cl cl' ->
    rrel (Forall2 (P2 d0 d0)) (shinohara h l cl w) (shinohara h' l' cl' w).
  Proof.
    intros. unfold shinohara, shinohara_ratio. sims.
  Qed.
  Lemma bar_pairs_rel h h' l l' cl cl' : ss dp h h' -> ss dp l l' -> ss dp cl cl' ->
    rrel (Forall2 (prel (prel (prel (prel sp sp) sp) sp) sp)) (bar_pairs h l cl) (bar_pairs h' l' cl').
  Proof. intros. unfold bar_pairs. sims. Qed.
  Ltac hook9 ::= match goal with
    | |- rrel _ (bar_pairs _ _ _) _ => eapply bar_pairs_rel
    | |- rrel _ (swing _ _ _ _ _) _ => eapply swing_rel
    end.
  Lemma adx_rel h h' l l' cl cl' w s : ss dp h h' -> ss dp l l' -> ss dp cl cl' ->
    rrel (Forall2 (prel (P2 d0 d0) (sim d0))) (adx h l cl w s) (adx h' l' cl' w s).
  Proof. intros. unfold adx, bar_tr, dm_pos, dm_neg, di_ratio, dx_ratio, tr_bar. sims. Qed.
  Lemma vortex_rel h h' l l' cl cl' w : ss dp h h' -> ss dp l l' -> ss dp cl cl' ->
    rrel (Forall2 (P2 d0 d0)) (vortex h l cl w) (vortex h' l' cl' w).
  Proof.
    intros. unfold vortex. eapply r_bind; [apply bar_pairs_rel; eassumption|intros].
    eapply (r_bind (Forall2 (Forall2 (prel (P2 dp dp) (sim dp))))).
    { unfold vortex_bar, tr_bar. sims. }
    intros. sims. unfold vortex_win.
    match goal with H : Forall2 (prel (P2 dp dp) _) ?x ?y |- _ => destruct H end; [sims|].
    folds (prel (P2 dp dp) (sim dp)); sims.
  Qed.
  Lemma asi_rel o o' h h' l l' cl cl' t t' : ss dp o o' -> ss dp h h' -> ss dp l l' -> ss dp cl cl' -> sim dp t t' ->
    rrel (ss d0) (asi o h l cl t) (asi o' h' l' cl' t').
  Proof. intros. unfold asi. sims. scn (sim d0). unfold acc_step. sims. Qed.
  Lemma ulcer_rel l l' w : ss dp l l' -> rrel (ss d0) (ulcer l w) (ulcer l' w).
  Proof. intros. unfold ulcer, ulcer_dd. sims. Qed.
  Lemma rwi_rel h h' l l' cl cl' w : ss dp h h' -> ss dp l l' -> ss dp cl cl' ->
    rrel (Forall2 (P2 d0 d0)) (rwi h l cl w) (rwi h' l' cl' w).
  Proof.
    intros. unfold rwi. sims. unfold rwi_win. folds (prel (P2 d0 d0) (sim dp)); sims. unfold rwi_step. sims.
  Qed.
  Definition psar_rel_st (s s' : psar_state) : Prop :=
    sim d0 (ps_af s) (ps_af s') /\ ps_fall s' = ps_fall s /\ sim dp (ps_sar s) (ps_sar s') /\ sim dp (ps_ep s) (ps_ep s').
  Lemma psar_rel h h' l l' a m : ss dp h h' -> ss dp l l' -> rrel (ss dp) (psar h l a m) (psar h' l' a m).
  Proof.
    intros Hh Hl. unfold psar. cbv zeta. set (ai := unwrap_or a _). set (am := unwrap_or m _).
    eapply (r_bind (sim dp)); [sims|intros h0 h0' ?]. eapply (r_bind (sim dp)); [sims|intros l0 l0' ?].
    lens. eapply r_bind; [apply r_refl|intros ? ? <-]. eapply (r_bind (ss dp)); [|intros; sims].
    eapply (r_scan eq _ psar_rel_st); [apply f2_refl|unfold psar_rel_st; cbn [ps_af ps_fall ps_sar ps_ep]; repeat split; sims|].
    intros s s' i ? (A & B & C & D) <-. unfold psar_step.
    do 4 (eapply (r_bind (sim dp)); [sims|intros]).
    match goal with |- context [psar_body _ _ s ?x1 ?x2 ?x3 ?x4] => match goal with |- context [psar_body _ _ s' ?y1 ?y2 ?y3 ?y4] =>
      assert (E : psar_rel_st (psar_body ai am s x1 x2 x3 x4) (psar_body ai am s' y1 y2 y3 y4)) end end.
    2: { cbv zeta. apply r_ok. split; [exact E|apply E]. }
    destruct s as [af fall sar ep], s' as [af' fall' sar' ep']. cbn [ps_af ps_fall ps_sar ps_ep] in *. subst fall'.
    unfold psar_body. cbv zeta.
    assert (S1 : sim dp (sar + af * (ep - sar))%F (sar' + af' * (ep' - sar'))%F) by sims.
    revert S1. generalize (sar + af * (ep - sar))%F (sar' + af' * (ep' - sar'))%F. intros z z' S1.
    assert (G : forall x x' y y', sim dp x x' -> sim dp y y' -> fgtb x' y' = fgtb x y) by (intros; sims).
    assert (L : forall x x' y y', sim dp x x' -> sim dp y y' -> fltb x' y' = fltb x y) by (intros; sims).
    repeat match goal with
      | Ha : sim dp ?a ?a', Hb : sim dp ?b ?b' |- context [fgtb ?a' ?b'] => rewrite (G _ _ _ _ Ha Hb)
      | Ha : sim dp ?a ?a', Hb : sim dp ?b ?b' |- context [fltb ?a' ?b'] => rewrite (L _ _ _ _ Ha Hb)
      end.
    destruct fall; match goal with |- psar_rel_st (if ?b then _ else _) _ => destruct b end; unfold psar_rel_st; cbn [negb ps_af ps_fall ps_sar ps_ep]; repeat split; sims.
  Qed.
  Lemma dpo_rel d l l' w m : ss d l l' -> rrel (ss d) (dpo l w m) (dpo l' w m).
  Proof. intros. unfold dpo. sims. Qed.
  Lemma arg_last_rel d (bt : xr -> xr -> bool) l l' :
    (forall a a' b b', sim d a a' -> sim d b b' -> bt a' b' = bt a b) ->
    ss d l l' -> arg_last bt l' = arg_last bt l.
  Proof. exact (arg_first_rel d bt l l'). Qed.
  Lemma aroon_rel h h' l l' w : ss dp h h' -> ss dp l l' ->
    rrel (Forall2 (P2 d0 d0)) (aroon h l w) (aroon h' l' w).
  Proof.
    intros. unfold aroon. sims. unfold aroon_win.
    assert (E1 : forall a a', ss dp a a' -> arg_last fgeb a' = arg_last fgeb a).
    { intros. apply (arg_last_rel dp); [|easy]. intros. sims. }
    assert (E2 : forall a a', ss dp a a' -> arg_last fleb a' = arg_last fleb a).
    { intros. apply (arg_last_rel dp); [|easy]. intros. sims. }
    match goal with H : ss dp ?a ?a' |- context [arg_last fgeb ?a'] => rewrite (E1 a a' H) end.
    match goal with H : ss dp ?a ?a' |- context [arg_last fleb ?a'] => rewrite (E2 a a' H) end.
    sims.
  Qed.
  Lemma chandelier_rel h h' l l' cl cl' w m : ss dp h h' -> ss dp l l' -> ss dp cl cl' ->
    rrel (Forall2 (P2 dp dp)) (chandelier h l cl w m) (chandelier h' l' cl' w m).
  Proof. intros. unfold chandelier, stop_win. sims. Qed.
  Lemma atr_stop_rel h h' l l' cl cl' w m : ss dp h h' -> ss dp l l' -> ss dp cl cl' ->
    rrel (ss dp) (atr_stop h l cl w m) (atr_stop h' l' cl' w m).
  Proof.
    intros. unfold atr_stop. sims. scn (prel (@eq bool) (sim dp)). subst. unfold atr_stop_step. cbv zeta.
    match goal with |- context [fmax ?p (fsub ?x (fmul ?k ?y))] => match goal with |- context [fmax ?p' (fsub ?x' (fmul k ?y'))] =>
      tryif constr_eq p p' then fail else
      (assert (Sx : sim dp x x') by sims; assert (Sm : sim dp (fmul k y) (fmul k y')) by sims;
       revert Sx Sm; generalize x x' (fmul k y) (fmul k y'); intros t t' u u' Sx Sm) end end.
    match goal with |- context [fmax ?p (fsub t u)] => match goal with |- context [fmax ?p' (fsub t' u')] =>
      assert (B1 : sim dp (fmax p (fsub t u)) (fmax p' (fsub t' u'))) by sims;
      assert (B2 : sim dp (fmin p (fadd t u)) (fmin p' (fadd t' u'))) by sims end end.
    rewrite (s_ltb c v Hc Hv _ _ _ _ _ Sx B1). unfold fgtb. rewrite (s_ltb c v Hc Hv _ _ _ _ _ B2 Sx).
    repeat match goal with |- context [if ?b then _ else _] => destruct b end; sims.
  Qed.
  Lemma displaced_rel d l l' w o mo : ss d l l' -> rrel (ss d) (displaced l w o mo) (displaced l' w o mo).
  Proof. intros. unfold displaced. sims. Qed.
  Lemma alligator_rel d l l' jw jo tw to lw lo : ss d l l' ->
    rrel (Forall2 (prel (P2 d d) (sim d))) (alligator l jw jo tw to lw lo) (alligator l' jw jo tw to lw lo).
  Proof.
    intros. unfold alligator. do 3 (eapply (r_bind (ss d)); [now apply displaced_rel|intros]). sims.
  Qed.
  Lemma midpoints_rel h h' l l' w : ss dp h h' -> ss dp l l' -> rrel (ss dp) (midpoints h l w) (midpoints h' l' w).
  Proof. intros. unfold midpoints. sims. Qed.
  Lemma ichimoku_rel h h' l l' cl cl' a b e f : ss dp h h' -> ss dp l l' -> ss dp cl cl' ->
    rrel (Forall2 (prel (prel (prel (P2 dp dp) sp) sp) sp)) (ichimoku h l cl a b e f) (ichimoku h' l' cl' a b e f).
  Proof.
    intros. unfold ichimoku.
    do 3 (eapply r_bind; [apply r_refl|intros ? ? <-]; eapply (r_bind (ss dp)); [now apply midpoints_rel|intros]).
    sims.
  Qed.

  (** The first step of [supertrend] compares nothing but NaN with its seeds. *)
  Lemma xltb_nan_l a : xltb NaN a = false.
  Proof. easy. Qed.
  Lemma xltb_nan_r a : xltb a NaN = false.
  Proof. now destruct a as [|[]|]. Qed.
  Lemma supertrend_first m h l cl t p :
    supertrend_step m (fnan, fnan, p, true) (h, l, cl, t) =
    ((fsub (fdiv (fadd h l) (flit 2 1)) (fmul m t), fadd (fdiv (fadd h l) (flit 2 1)) (fmul m t), cl, true),
     fsub (fdiv (fadd h l) (flit 2 1)) (fmul m t)).
  Proof.
    unfold supertrend_step, fgtb. cbv zeta. change (@fltb xr XR) with xltb. change (@fnan xr XR) with NaN.
    now rewrite ?xltb_nan_l, ?xltb_nan_r, ?andb_false_r.
  Qed.
  Lemma supertrend_rel h h' l l' cl cl' w m : ss dp h h' -> ss dp l l' -> ss dp cl cl' ->
    rrel (ss dp) (supertrend h l cl w m) (supertrend h' l' cl' w m).
  Proof.
    intros. unfold supertrend. eapply r_bind; [apply atr_rel; eassumption|intros]. apply r_ok.
    assert (E : Forall2 (prel (prel (prel sp sp) sp) sp) (zip4 h l cl a) (zip4 h' l' cl' a')) by sims.
    destruct E as [|x x' z z' Hx Hz]; [constructor|]. brk. cbn [scan]. rewrite !supertrend_first.
    constructor; [sims|]. eapply (f2_scan _ _ (prel (prel (prel sp sp) sp) (fun b b' : bool => b' = b))); [exact Hz|sims|]. clear - Hc Hv. intros. brk. subst.
    unfold supertrend_step. cbv zeta. sims.
  Qed.
  Definition zz_rel_st (s s' : zz_state) : Prop :=
    ss dp (zz_res s) (zz_res s') /\ prel eq sp (zz_start s) (zz_start s') /\ prel eq sp (zz_end s) (zz_end s').
  Lemma zz_init_rel d h h' l l' s s' idxs : ss dp h h' -> ss dp l l' -> zz_rel_st s s' ->
    rrel zz_rel_st (zz_init d h l s idxs) (zz_init d h' l' s' idxs).
  Proof.
    intros Hh Hl Hs. induction idxs as [|i idxs IH]; cbn [zz_init]; [now apply r_ok|].
    do 2 (eapply (r_bind sp); [sims|intros]). apply r_if; [sims| |].
    - apply r_ok. destruct Hs as (? & ? & ?). unfold zz_rel_st. cbn [zz_res zz_start zz_end]. repeat split; sims.
    - do 2 (eapply (r_bind sp); [sims|intros]). apply r_if; [sims| |exact IH].
      apply r_ok. destruct Hs as (? & ? & ?). unfold zz_rel_st. cbn [zz_res zz_start zz_end]. repeat split; sims.
  Qed.
  Lemma zz_step_rel d h h' l l' s s' i : ss dp h h' -> ss dp l l' -> zz_rel_st s s' ->
    rrel zz_rel_st (zz_step d h l s i) (zz_step d h' l' s' i).
  Proof.
    intros Hh Hl Hs. destruct s as [r [n0 a] [n1 b]], s' as [r' [n0' a'] [n1' b']]. pose proof Hs as (A & [B1 B2] & [C1 C2]).
    cbn [zz_res zz_start zz_end fst snd] in *. subst n0' n1'. unfold zz_step. cbn [fst snd]. cbv zeta.
    eapply (r_bind sp); [sims|intros].
    assert (U : forall x x' y y' e e' n, ss dp x x' -> sp y y' -> sp e e' -> 
      zz_rel_st (mk_zz x (n, y) (i, e)) (mk_zz x' (n, y') (i, e'))).
    { intros. unfold zz_rel_st. cbn [zz_res zz_start zz_end fst snd]. repeat split; assumption. }
    assert (Rv : forall (k : bool), rrel zz_rel_st
      (if k then let* li := idx l i in if fgeb ((b - li) / li * #100)%F d then Ok (mk_zz (upd r n1 b) (n1, b) (i, li)) else Ok (mk_zz r (n0, a) (n1, b)) else Ok (mk_zz r (n0, a) (n1, b)))
      (if k then let* li := idx l' i in if fgeb ((b' - li) / li * #100)%F d then Ok (mk_zz (upd r' n1 b') (n1, b') (i, li)) else Ok (mk_zz r' (n0, a') (n1, b')) else Ok (mk_zz r' (n0, a') (n1, b')))).
    { intros []; [|now apply r_ok]. eapply (r_bind sp); [sims|intros]. apply r_if; [sims| |now apply r_ok].
      apply r_ok, U; sims. }
    apply r_if; [sims|apply r_ok, U; sims|]. apply r_if; [sims|apply r_ok, U; sims|].
    assert (E1 : fgtb b' a' = fgtb b a) by sims. assert (E2 : (b' <? a')%F = (b <? a)%F) by sims. rewrite E1, E2.
    apply r_if; [easy| |apply Rv]. eapply (r_bind sp); [sims|intros]. apply r_if; [sims|apply r_ok, U; sims|apply Rv].
  Qed.
  Lemma zz_loop_rel d h h' l l' idxs : ss dp h h' -> ss dp l l' -> forall s s', zz_rel_st s s' ->
    rrel zz_rel_st (zz_loop d h l s idxs) (zz_loop d h' l' s' idxs).
  Proof.
    intros Hh Hl. induction idxs as [|i idxs IH]; cbn [zz_loop]; intros s s' Hs; [now apply r_ok|].
    eapply r_bind; [now apply zz_step_rel|intros]. now apply IH.
  Qed.
  Lemma zigzag_rel h h' l l' d : ss dp h h' -> ss dp l l' -> rrel (ss dp) (zigzag h l d) (zigzag h' l' d).
  Proof.
    intros. unfold zigzag. cbv zeta. lens. eapply (r_bind sp); [sims|intros l0 l0' Hl0]. eapply r_bind; [apply r_refl|intros n1 ? <-].
    eapply (r_bind sp); [sims|intros hl hl' Hhl]. eapply r_bind.
    { apply zz_init_rel; [assumption..|]. unfold zz_rel_st. cbn [zz_res zz_start zz_end]. repeat split; sims. }
    intros s s' Hs. pose proof Hs as (_ & _ & (E & _)). rewrite <- E. eapply (r_bind zz_rel_st).
    { apply r_if; [easy|now apply zz_loop_rel|now apply r_ok]. }
    intros [r [n0 a] [m0 b]] [r' [n0' a'] [m0' b']] (A & (B1 & B2) & (C1 & C2)). cbn [zz_res zz_start zz_end fst snd] in *. subst.
    eapply (r_bind sp); [sims|intros]. apply r_if; [|apply r_if|]; try (apply r_ok; sims); try sims.
    eapply s_isnan. eassumption.
  Qed.

  (** *** momentum.rs *)
  Lemma pairs_rel d l l' : ss d l l' -> Forall2 (P2 d d) (pairs l) (pairs l').
  Proof. intros. unfold pairs. sims. Qed.
  Lemma rsi_rel d l l' w : ss d l l' -> rrel (ss d0) (rsi l w) (rsi l' w).
  Proof.
    intros. unfold rsi. pose proof (pairs_rel _ _ _ H).
    eapply (r_bind (ss d)); [unfold gain; sims|intros]. eapply (r_bind (ss d)); [unfold loss; sims|intros].
    unfold rsi_ratio. sims.
  Qed.
  Ltac hookA ::= match goal with
    | |- Forall2 _ (pairs _) _ => eapply pairs_rel
    | |- rrel _ (rsi _ _) _ => eapply rsi_rel
    end.
  Lemma crsi_rel l l' a b e : ss dp l l' -> rrel (ss d0) (crsi l a b e) (crsi l' a b e).
  Proof.
    intros. unfold crsi. eapply r_bind; [eapply rsi_rel; eassumption|intros].
    assert (E : Forall2 (P2 d0 d0) (scan streak_step (flit 0 1, flit 0 1) (pairs l)) (scan streak_step (flit 0 1, flit 0 1) (pairs l'))).
    { eapply (f2_scan _ _ (P2 d0 d0)); [eapply pairs_rel; eassumption|sims|]. intros. brk. unfold streak_step. cbn [fst snd]. sims. }
    cbv zeta. revert E. generalize (scan streak_step (flit 0 1, flit 0 1) (pairs l)) (scan streak_step (flit 0 1, flit 0 1) (pairs l')).
    intros z z' Hz.
    assert (E1 : ss d0 (map fst z) (map fst z')) by (eapply f2_map; [exact Hz|intros; brk; sims]).
    assert (E2 : ss d0 (map snd z) (map snd z')) by (eapply f2_map; [exact Hz|intros; brk; sims]).
    rewrite (f2_same0 c v _ _ E1), (f2_same0 c v _ _ E2).
    eapply r_bind; [apply (r_list0 c v)|intros]. eapply r_bind; [apply r_refl|intros ? ? <-]. sims.
  Qed.
  Lemma macd_rel d l l' a b : ss d l l' -> rrel (ss d) (macd l a b) (macd l' a b).
  Proof. intros. unfold macd. sims. Qed.
  Lemma apo_rel d l l' a b : ss d l l' -> rrel (ss d) (apo l a b) (apo l' a b).
  Proof. intros. unfold apo. sims. Qed.
  Lemma cmo_rel d l l' a : ss d l l' -> rrel (ss d0) (cmo l a) (cmo l' a).
  Proof. intros. unfold cmo. pose proof (cmo_raw_rel d l l' a H). sims. Qed.
  Lemma cfo_rel d l l' a : ss d l l' -> rrel (ss d0) (cfo l a) (cfo l' a).
  Proof. intros. unfold cfo. sims. Qed.
  Lemma elder_ray_rel h h' l l' cl cl' w : ss dp h h' -> ss dp l l' -> ss dp cl cl' ->
    rrel (Forall2 (P2 dp dp)) (elder_ray h l cl w) (elder_ray h' l' cl' w).
  Proof. intros. unfold elder_ray. sims. Qed.
  Lemma hlc_windows_rel h h' l l' cl cl' w : ss dp h h' -> ss dp l l' -> ss dp cl cl' ->
    rrel (Forall2 (prel (prel (ss dp) (ss dp)) sp)) (hlc_windows h l cl w) (hlc_windows h' l' cl' w).
  Proof. intros. unfold hlc_windows. sims. Qed.
  Lemma wpr_rel h h' l l' cl cl' w : ss dp h h' -> ss dp l l' -> ss dp cl cl' ->
    rrel (ss d0) (wpr h l cl w) (wpr h' l' cl' w).
  Proof.
    intros. unfold wpr. eapply r_bind; [apply r_refl|intros ? ? <-]. eapply r_bind; [apply hlc_windows_rel; eassumption|intros].
    unfold wpr_win. sims.
  Qed.
  Lemma ppo_rel d l l' a b : ss d l l' -> rrel (ss d0) (ppo l a b) (ppo l' a b).
  Proof. intros. unfold ppo. sims. Qed.
  Lemma pmo_rel d l l' a b : ss d l l' -> rrel (ss d0) (pmo l a b) (pmo l' a b).
  Proof. intros. unfold pmo. eapply (r_bind (ss d0)); [sims|intros]. sims. Qed.
  Lemma ultimate_rel h h' l l' cl cl' a b e : ss dp h h' -> ss dp l l' -> ss dp cl cl' ->
    rrel (ss d0) (ultimate h l cl a b e) (ultimate h' l' cl' a b e).
  Proof.
    intros. unfold ultimate. lens.
    eapply (r_bind (ss dp)); [sims|intros]. eapply (r_bind (ss dp)); [sims|intros].
    eapply r_bind; [apply r_refl|intros ? ? <-]. eapply (r_bind (ss dp)); [sims|intros]. eapply (r_bind (ss dp)); [sims|intros].
    eapply (r_bind (Forall2 (Forall2 (P2 dp dp)))); [unfold bp_tr; sims|intros].
    eapply (r_bind (ss d0)); [|intros; sims]. eapply r_rmap; [eassumption|intros]. unfold ultimate_win.
    eapply r_bind; [apply r_refl|intros ? ? <-]. eapply r_bind; [apply r_refl|intros ? ? <-].
    assert (E : forall k x x', Forall2 (P2 dp dp) x x' -> P2 dp dp (bp_sums k x) (bp_sums k x')).
    { intros k x x' Hx. unfold bp_sums. eapply f2_fold; [eapply f2_skipn; exact Hx|sims|intros; brk; sims]. }
    repeat match goal with |- context [bp_sums ?k ?x] => match goal with Hx : Forall2 _ x ?x' |- _ =>
      generalize (E k x x' Hx); generalize (bp_sums k x) (bp_sums k x'); intros end end.
    brk. sims.
  Qed.
  Lemma pgo_rel h h' l l' cl cl' w : ss dp h h' -> ss dp l l' -> ss dp cl cl' -> rrel (ss d0) (pgo h l cl w) (pgo h' l' cl' w).
  Proof. intros. unfold pgo. sims. Qed.
  Lemma si_rel o o' h h' l l' cl cl' t t' : ss dp o o' -> ss dp h h' -> ss dp l l' -> ss dp cl cl' -> sim dp t t' ->
    rrel (ss d0) (si o h l cl t) (si o' h' l' cl' t').
  Proof. intros. unfold si. sims. Qed.
  Lemma trix_rel d l l' a : ss d l l' -> rrel (ss d0) (trix l a) (trix l' a).
  Proof. intros. unfold trix. sims. Qed.
  Lemma tii_rel l l' a : ss dp l l' -> rrel (ss d0) (tii l a) (tii l' a).
  Proof.
    intros. unfold tii. eapply r_bind; [apply r_refl|intros ? ? <-]. eapply (r_bind (ss dp)); [sims|intros].
    eapply (r_bind (Forall2 (Forall2 (P2 dp dp)))); [sims|intros]. sims.
    unfold tii_win. folds (P2 dp dp); sims.
  Qed.
  Lemma stoch_rel h h' l l' cl cl' w k : ss dp h h' -> ss dp l l' -> ss dp cl cl' ->
    rrel (Forall2 (P2 d0 d0)) (stoch h l cl w k) (stoch h' l' cl' w k).
  Proof.
    intros. unfold stoch. eapply r_bind; [apply hlc_windows_rel; eassumption|intros].
    eapply (r_bind (ss d0)); [unfold stoch_win; sims|intros]. sims.
  Qed.
  Lemma stochastic_rel h h' l l' cl cl' w : ss dp h h' -> ss dp l l' -> ss dp cl cl' ->
    rrel (Forall2 (P2 d0 d0)) (stochastic h l cl w) (stochastic h' l' cl' w).
  Proof. apply stoch_rel. Qed.
  Lemma stc_raw_rel d l l' a b : ss d l l' -> rrel (ss d0) (stc_raw l a b) (stc_raw l' a b).
  Proof. intros. unfold stc_raw, stc_win. sims. Qed.
  Lemma stc_rel d l l' a b e : ss d l l' -> rrel (ss d0) (stc l a b e) (stc l' a b e).
  Proof.
    intros. unfold stc. do 2 (eapply r_bind; [apply r_refl|intros ? ? <-]). eapply r_bind; [eapply macd_rel; eassumption|intros].
    eapply r_bind; [eapply stc_raw_rel; sims|intros]. eapply r_bind; [eapply stc_raw_rel; sims|intros]. sims.
  Qed.
  Lemma relative_vigor_rel o o' h h' l l' cl cl' w : ss dp o o' -> ss dp h h' -> ss dp l l' -> ss dp cl cl' ->
    rrel (ss d0) (relative_vigor o h l cl w) (relative_vigor o' h' l' cl' w).
  Proof.
    intros. unfold relative_vigor, swma4. eapply (r_bind (ss dp)); [sims|intros]. eapply (r_bind (ss dp)); [sims|intros]. sims.
  Qed.
  Lemma coppock_rel l l' a b e : ss dp l l' -> rrel (ss d0) (coppock l a b e) (coppock l' a b e).
  Proof. intros. unfold coppock, coppock_at. lens. sims. Qed.
  Lemma roc_rel l l' a : ss dp l l' -> rrel (ss d0) (roc l a) (roc l' a).
  Proof. intros. unfold roc, roc_win. sims. Qed.
  Lemma bal_power_rel o o' h h' l l' cl cl' w : ss dp o o' -> ss dp h h' -> ss dp l l' -> ss dp cl cl' ->
    rrel (ss d0) (bal_power o h l cl w) (bal_power o' h' l' cl' w).
  Proof. intros. unfold bal_power. sims. Qed.
  Lemma disparity_rel l l' a : ss dp l l' -> rrel (ss d0) (disparity l a) (disparity l' a).
  Proof. intros. unfold disparity. sims. Qed.
  Lemma qstick_rel o o' cl cl' w : ss dp o o' -> ss dp cl cl' -> rrel (ss dp) (qstick o cl w) (qstick o' cl' w).
  Proof. intros. unfold qstick. sims. Qed.
  Lemma cog_rel l l' a : ss dp l l' -> rrel (ss d0) (cog l a) (cog l' a).
  Proof. intros. unfold cog, cog_win. sims. Qed.
  Lemma psych_rel l l' a : ss dp l l' -> rrel (ss d0) (psych l a) (psych l' a).
  Proof. intros. unfold psych, psych_up. sims. Qed.
  Lemma tsi_rel l l' a b : ss dp l l' -> rrel (ss d0) (tsi l a b) (tsi l' a b).
  Proof. intros. unfold tsi. sims. Qed.
  Lemma prings_term_rel l l' a b acc t : ss dp l l' -> prings_term l' a b acc t = prings_term l a b acc t.
  Proof.
    intros H. unfold prings_term. destruct t as [[r m] k]. cbv zeta.
    assert (E : ss d0 (map roc_win (windows (r + 1) l)) (map roc_win (windows (r + 1) l'))) by (unfold roc_win; sims).
    now rewrite (f2_same0 c v _ _ E).
  Qed.
  Lemma prings_loop_rel l l' a b ts : ss dp l l' -> forall acc, prings_loop l' a b acc ts = prings_loop l a b acc ts.
  Proof.
    intros H. induction ts as [|t ts IH]; intros acc; cbn [prings_loop]; [easy|].
    rewrite (prings_term_rel l l') by exact H. destruct (prings_term l a b acc t); cbn [bind]; [apply IH|easy].
  Qed.
  Lemma prings_rel l l' a b m : ss dp l l' -> prings l' a b m = prings l a b m.
  Proof.
    intros H. unfold prings. rewrite (f2_length _ _ _ H).
    destruct (idx a 0); cbn [bind]; [|easy]. destruct (idx b 0); cbn [bind]; [|easy].
    destruct (usub _ _); cbn [bind]; [|easy]. destruct (usub _ _); cbn [bind]; [|easy]. destruct (usub _ _); cbn [bind]; [|easy].
    now rewrite (prings_loop_rel l l').
  Qed.
  Lemma derivative_rel l l' a b e : ss dp l l' -> rrel (ss d0) (derivative l a b e) (derivative l' a b e).
  Proof. intros. unfold derivative. sims. Qed.
  Lemma cci_rel h h' l l' cl cl' w : ss dp h h' -> ss dp l l' -> ss dp cl cl' -> rrel (ss d0) (cci h l cl w) (cci h' l' cl' w).
  Proof. intros. unfold cci, cci_win. sims. Qed.
  Lemma qqe_rel l l' a b : ss dp l l' -> qqe l' a b = qqe l a b.
  Proof. intros. unfold qqe. now rewrite (r_same0 c v _ _ (rsi_rel _ _ _ a H)). Qed.
  Lemma deli_rel h h' l l' w : ss dp h h' -> ss dp l l' -> rrel (ss dp) (deli h l w) (deli h' l' w).
  Proof.
    intros. unfold deli. assert (E : ss dp (deli_quotes h l) (deli_quotes h' l')).
    { unfold deli_quotes. eapply f2_map; [eapply f2_combine; eapply pairs_rel; eassumption|]. intros. brk. sims. }
    sims.
  Qed.
  Lemma gator_rel l l' jw jo tw to lw lo : ss dp l l' ->
    rrel (Forall2 (P2 dp dp)) (gator l jw jo tw to lw lo) (gator l' jw jo tw to lw lo).
  Proof. intros. unfold gator. eapply r_bind; [eapply alligator_rel; eassumption|intros]. sims. Qed.
  Lemma kdj_rel h h' l l' cl cl' w k kf df : ss dp h h' -> ss dp l l' -> ss dp cl cl' ->
    rrel (Forall2 (prel (P2 d0 d0) (sim d0))) (kdj h l cl w k kf df) (kdj h' l' cl' w k kf df).
  Proof. intros. unfold kdj. eapply r_bind; [eapply stoch_rel; eassumption|intros]. sims. Qed.

  (** *** mama *)
  Record mama_rel_st (s s' : mama_state) : Prop := {
    mr1 : sp (ms_mama s) (ms_mama s'); mr2 : sp (ms_fama s) (ms_fama s');
    mr3 : ms_period s' = ms_period s; mr4 : ms_phase s' = ms_phase s;
    mr5 : sim (2, 0)%Z (ms_re s) (ms_re s'); mr6 : sim (2, 0)%Z (ms_im s) (ms_im s');
    mr7 : sp (ms_i2 s) (ms_i2 s'); mr8 : sp (ms_q2 s) (ms_q2 s');
    mr9 : ss dp (ms_dtrend s) (ms_dtrend s'); mr10 : ss dp (ms_i1q s) (ms_i1q s'); mr11 : ss dp (ms_q1q s) (ms_q1q s') }.
  Lemma hilbert_rel a a' b b' e e' f f' t : sp a a' -> sp b b' -> sp e e' -> sp f f' ->
    sp (hilbert a b e f t) (hilbert a' b' e' f' t).
  Proof. intros. unfold hilbert. sims. Qed.
  Lemma push7_rel a a' l l' : sp a a' -> ss dp l l' -> ss dp (push7 a l) (push7 a' l').
  Proof. intros. unfold push7. sims. Qed.
  Lemma mama_step_rel fa sl sm sm' l l' s s' i : ss dp sm sm' -> ss dp l l' -> mama_rel_st s s' ->
    rrel (prel mama_rel_st (P2 dp dp)) (mama_step fa sl sm l s i) (mama_step fa sl sm' l' s' i).
  Proof.
    intros Hs Hl [M1 M2 M3 M4 M5 M6 M7 M8 M9 M10 M11]. unfold mama_step. cbv zeta. rewrite M3, M4.
    generalize (flit 75 1000 * ms_period s + flit 54 100)%F as tw. intros tw.
    match goal with |- context [push7 ?x (ms_dtrend s)] => match goal with |- context [push7 ?x' (ms_dtrend s')] =>
      assert (D : ss dp (push7 x (ms_dtrend s)) (push7 x' (ms_dtrend s'))) by (apply push7_rel; [apply hilbert_rel; sims|exact M9]);
      revert D; generalize (push7 x (ms_dtrend s)) (push7 x' (ms_dtrend s')); intros dt dt' D end end.
    match goal with |- context [push7 ?x (ms_q1q s)] => match goal with |- context [push7 ?x' (ms_q1q s')] =>
      assert (Q : ss dp (push7 x (ms_q1q s)) (push7 x' (ms_q1q s'))) by (apply push7_rel; [apply hilbert_rel; sims|exact M11]);
      revert Q; generalize (push7 x (ms_q1q s)) (push7 x' (ms_q1q s')); intros q1 q1' Q end end.
    assert (I : ss dp (push7 (at_ dt 3) (ms_i1q s)) (push7 (at_ dt' 3) (ms_i1q s'))) by (apply push7_rel; sims).
    revert I. generalize (push7 (at_ dt 3) (ms_i1q s)) (push7 (at_ dt' 3) (ms_i1q s')). intros i1 i1' I.
    assert (J : forall k k', ss dp k k' -> sp (hilbert (at_ k 0) (at_ k 2) (at_ k 4) (at_ k 6) tw) (hilbert (at_ k' 0) (at_ k' 2) (at_ k' 4) (at_ k' 6) tw))
      by (intros; apply hilbert_rel; sims).
    pose proof (J _ _ I) as Ji. pose proof (J _ _ Q) as Jq. clear J. revert Ji Jq.
    generalize (hilbert (at_ i1 0) (at_ i1 2) (at_ i1 4) (at_ i1 6) tw) (hilbert (at_ i1' 0) (at_ i1' 2) (at_ i1' 4) (at_ i1' 6) tw)
      (hilbert (at_ q1 0) (at_ q1 2) (at_ q1 4) (at_ q1 6) tw) (hilbert (at_ q1' 0) (at_ q1' 2) (at_ q1' 4) (at_ q1' 6) tw).
    intros ji ji' jq jq' Ji Jq.
    assert (I2 : sp (flit 2 10 * (at_ i1 0 - jq) + flit 8 10 * ms_i2 s)%F (flit 2 10 * (at_ i1' 0 - jq') + flit 8 10 * ms_i2 s')%F) by sims.
    assert (Q2 : sp (flit 2 10 * (at_ q1 0 + ji) + flit 8 10 * ms_q2 s)%F (flit 2 10 * (at_ q1' 0 + ji') + flit 8 10 * ms_q2 s')%F) by sims.
    revert I2 Q2. generalize (flit 2 10 * (at_ i1 0 - jq) + flit 8 10 * ms_i2 s)%F (flit 2 10 * (at_ i1' 0 - jq') + flit 8 10 * ms_i2 s')%F
     (flit 2 10 * (at_ q1 0 + ji) + flit 8 10 * ms_q2 s)%F (flit 2 10 * (at_ q1' 0 + ji') + flit 8 10 * ms_q2 s')%F.
    intros i2 i2' q2 q2' I2 Q2.
    match goal with |- context [fneb ?im _ && fneb ?re _] => match goal with |- context [fneb ?im' _ && fneb ?re' _] =>
      tryif constr_eq im im' then fail else
      (assert (Im : sim (2, 0)%Z im im') by sims; assert (Re : sim (2, 0)%Z re re') by sims;
       revert Im Re; generalize im im' re re'; intros m m' r r' Im Re) end end.
    assert (Pd : sim d0 (if fneb m #0 && fneb r #0 then #360 / fatan (m / r) else #0)%F (if fneb m' #0 && fneb r' #0 then #360 / fatan (m' / r') else #0)%F)
      by sims.
    rewrite (s_eq c v _ _ Pd).
    assert (Ph : sim d0 (if fneb (at_ i1 0) #0 then fatan (at_ q1 0 / at_ i1 0) else #0)%F (if fneb (at_ i1' 0) #0 then fatan (at_ q1' 0 / at_ i1' 0) else #0)%F) by sims.
    rewrite (s_eq c v _ _ Ph).
    eapply r_bind; [apply r_refl|intros ? ? <-].
    match goal with |- context [fmax (fdiv ?f (fmax ?e ?g)) ?t] => generalize (fmax (fdiv f (fmax e g)) t); intros al end.
    apply r_ok. split; [constructor|]; cbn [ms_mama ms_fama ms_period ms_phase ms_re ms_im ms_i2 ms_q2 ms_dtrend ms_i1q ms_q1q fst snd]; sims.
  Qed.
  Lemma mama_rel l l' a b : ss dp l l' -> rrel (Forall2 (P2 dp dp)) (mama l a b) (mama l' a b).
  Proof.
    intros H. unfold mama. cbv zeta. lens. eapply (r_bind (Forall2 (P2 dp dp))); [|intros; sims].
    eapply (r_scan eq _ mama_rel_st); [apply f2_refl| |].
    - constructor; cbn [mama_init ms_mama ms_fama ms_period ms_phase ms_re ms_im ms_i2 ms_q2 ms_dtrend ms_i1q ms_q1q]; sims.
    - intros s s' i ? Hs <-. apply mama_step_rel; [|exact H|exact Hs]. unfold mama_smooth. sims.
  Qed.

  (** *** quantiles *)
  Lemma swap_rel d l l' i j : ss d l l' -> rrel (ss d) (swap l i j) (swap l' i j).
  Proof. intros. unfold swap. sims. Qed.
  Lemma lomuto_rel d p p' js : sim d p p' -> forall l l' i, ss d l l' ->
    rrel (prel (ss d) eq) (lomuto fltb p js l i) (lomuto fltb p' js l' i).
  Proof.
    intros Hp. induction js as [|j js IH]; intros l l' i Hl; cbn [lomuto]; [apply r_ok; split; easy|].
    eapply (r_bind (sim d)); [sims|intros]. apply r_if; [sims| |now apply IH].
    eapply r_bind; [apply (swap_rel d); assumption|intros]. now apply IH.
  Qed.
  Lemma quickselect_loop_rel d fuel k : forall l l' lo hi, ss d l l' ->
    orel (rrel (prel (ss d) (sim d))) (quickselect_loop fltb fuel l k lo hi) (quickselect_loop fltb fuel l' k lo hi).
  Proof.
    induction fuel as [|fuel IH]; intros l l' lo hi Hl; cbn [quickselect_loop].
    all: destruct (lo <? hi)%nat; cbn [orel]; [|eapply (r_bind (sim d)); [sims|intros; apply r_ok; split; easy]]; try easy.
    assert (E : rrel (prel (ss d) eq)
      (let* pivot := idx l hi in let* '(data1, i) := lomuto fltb pivot (seq lo (hi - lo)) l lo in let* data2 := swap data1 i hi in Ok (data2, i))
      (let* pivot := idx l' hi in let* '(data1, i) := lomuto fltb pivot (seq lo (hi - lo)) l' lo in let* data2 := swap data1 i hi in Ok (data2, i))).
    { eapply (r_bind (sim d)); [sims|intros]. eapply r_bind; [apply (lomuto_rel d); assumption|intros [x i] [x' i'] [Hx Hi]]. cbn [fst snd] in *. subst.
      eapply r_bind; [apply (swap_rel d); assumption|intros]. apply r_ok. split; easy. }
    revert E. match goal with |- rrel _ ?u ?w -> _ => destruct u as [[x i]|], w as [[y i']|] end; cbn [rrel]; try easy.
    intros [Hx Hi]. cbn [fst snd] in *. subst i'. destruct (Nat.compare i k); cbn [orel].
    - eapply (r_bind (sim d)); [sims|intros; apply r_ok; split; easy].
    - now apply IH.
    - destruct (usub i 1); [now apply IH|easy].
  Qed.
  Lemma quickselect_rel d l l' k : ss d l l' -> rrel (prel (ss d) (sim d)) (quickselect fltb l k) (quickselect fltb l' k).
  Proof.
    intros H. unfold quickselect. lens. eapply r_bind; [apply r_refl|intros ? ? <-].
    pose proof (quickselect_loop_rel d (length l) k l l' 0 a H) as E.
    destruct (quickselect_loop fltb (length l) l k 0 a), (quickselect_loop fltb (length l) l' k 0 a); cbn [orel] in *; easy.
  Qed.
  Lemma quantile_rel d l l' w q : ss d l l' -> rrel (ss d) (quantile l w q) (quantile l' w q).
  Proof.
    intros. unfold quantile. eapply r_bind; [apply r_refl|intros ? ? <-]. eapply (r_bind (Forall2 (ss d))); [sims|intros].
    eapply (r_bind (ss d)); [|intros; sims]. eapply r_rmap; [eassumption|intros]. unfold quantile_win.
    eapply r_bind; [apply r_refl|intros ? ? <-]. cbv zeta. apply r_if; [easy| |].
    - eapply r_bind; [apply (quickselect_rel d); assumption|intros [] [] []]. now apply r_ok.
    - eapply r_bind; [apply (quickselect_rel d); assumption|intros [] [] []]. cbn [fst snd] in *. sims.
  Qed.
  Lemma median_rel d l l' w : ss d l l' -> rrel (ss d) (median l w) (median l' w).
  Proof. apply quantile_rel. Qed.

  (** *** entropies: the tolerance is a price too *)
  Lemma run_match_rel t t' a a' b b' : sp t t' -> ss dp a a' -> ss dp b b' -> run_match t' a' b' = run_match t a b.
  Proof. intros. unfold run_match. sims. Qed.
  Lemma run_rel l l' m i : ss dp l l' -> ss dp (run l m i) (run l' m i).
  Proof. intros. unfold run. sims. Qed.
  Lemma rmap_same {A B} (f g : A -> result B) l : (forall x, f x = g x) -> rmap f l = rmap g l.
  Proof. intros E. induction l as [|x l IH]; cbn; [easy|]. now rewrite E, IH. Qed.
  Lemma phi_rel t t' l l' m : sp t t' -> ss dp l l' -> phi t' l' m = phi t l m.
  Proof.
    intros Ht Hl. unfold phi. rewrite (f2_length _ _ _ Hl). destruct (usub _ _); cbn [bind]; [|easy].
    erewrite rmap_same; [reflexivity|]. intros i. cbv beta. f_equal. apply map_ext. intros j.
    apply run_match_rel; [easy|now apply run_rel..].
  Qed.
  Lemma matches_rel t t' l l' m : sp t t' -> ss dp l l' -> matches t' l' m = matches t l m.
  Proof.
    intros Ht Hl. unfold matches. rewrite (f2_length _ _ _ Hl). destruct (usub _ _); cbn [bind]; [|easy].
    erewrite map_ext; [reflexivity|]. intros [i j]. apply run_match_rel; [easy|now apply run_rel..].
  Qed.
  Lemma entropy_tol_rel t t' l l' : ss dp l l' -> orel sp t t' -> rrel sp (entropy_tol l t) (entropy_tol l' t').
  Proof.
    intros H Ht. unfold entropy_tol. destruct t, t'; cbn [orel] in Ht; try easy.
    lens. eapply (r_bind (ss dp)); [sims|intros]. lens. sims.
  Qed.
  Lemma approx_entropy_rel l l' w r t t' : ss dp l l' -> orel sp t t' -> rrel (ss d0) (approx_entropy l w r t) (approx_entropy l' w r t').
  Proof.
    intros H Ht. unfold approx_entropy. cbv zeta. eapply r_bind; [now apply entropy_tol_rel|intros].
    eapply r_bind; [apply r_refl|intros ? ? <-]. eapply (r_bind (Forall2 (ss dp))); [sims|intros].
    eapply (r_bind (ss d0)); [|intros; sims]. eapply r_rmap; [eassumption|intros]. rewrite !(phi_rel a a' a2 a'1) by assumption.
    eapply r_bind; [apply r_refl|intros ? ? <-]. eapply r_bind; [apply r_refl|intros ? ? <-]. sims.
  Qed.
  Lemma sample_entropy_rel l l' w r t t' : ss dp l l' -> orel sp t t' -> rrel (ss d0) (sample_entropy l w r t) (sample_entropy l' w r t').
  Proof.
    intros H Ht. unfold sample_entropy. cbv zeta. eapply r_bind; [now apply entropy_tol_rel|intros].
    eapply r_bind; [apply r_refl|intros ? ? <-]. eapply (r_bind (Forall2 (ss dp))); [sims|intros].
    eapply (r_bind (ss d0)); [|intros; sims]. eapply r_rmap; [eassumption|intros]. rewrite !(matches_rel a a' a2 a'1) by assumption.
    eapply r_bind; [apply r_refl|intros ? ? <-]. eapply r_bind; [apply r_refl|intros ? ? <-]. sims.
  Qed.
  (** *** skew *)
  Lemma s_pow32 a a' : sim (2, 0)%Z a a' -> sim (3, 0)%Z (fpow a (#3 / #2)%F) (fpow a' (#3 / #2)%F).
  Proof.
    unfold Scale.sim, unit. cbn [fst snd powerRZ]. rewrite !Rmult_1_r. change (Pos.to_nat 2) with 2%nat. change (Pos.to_nat 3) with 3%nat. intros ->.
    assert (E : (#3 / #2 : xr)%F = Fin (3 / 2)).
    { rewrite !x_lit, x_div by lra. reflexivity. }
    rewrite E. change (@fpow xr XR) with xpow. destruct a as [r| |]; try reflexivity.
    cbn [sc]. cbn [xpow].
    assert (Pc : (0 < c ^ 2)%R) by (apply pow_lt; exact Hc).
    destruct (Rltb 0 r) eqn:E1.
    - apply Rltb_true in E1. rewrite (proj2 (Rltb_true 0 (c ^ 2 * r))) by now apply Rmult_lt_0_compat.
      cbn [sc]. f_equal. rewrite <- Rpower_mult_distr by assumption. f_equal.
      rewrite <- Rpower_pow by assumption. rewrite Rpower_mult. replace (INR 2 * (3 / 2))%R with (INR 3) by (cbn; lra). now rewrite Rpower_pow.
    - apply Rltb_false in E1. rewrite (proj2 (Rltb_false 0 (c ^ 2 * r))) by nra.
      destruct (Req r 0) eqn:E2.
      + apply Req_true in E2. subst r. rewrite Rmult_0_r. rewrite (proj2 (Req_true 0 0)) by reflexivity.
        destruct (Req (3 / 2) 0) eqn:E3; [apply Req_true in E3; lra|]. destruct (Rltb (3 / 2) 0) eqn:E4; [apply Rltb_true in E4; lra|].
        cbn [sc]. now rewrite Rmult_0_r.
      + rewrite Req_scale0, E2 by assumption. reflexivity.
  Qed.
  Lemma skew_rel l l' w : ss dp l l' -> rrel (ss d0) (skew l w) (skew l' w).
  Proof.
    intros. unfold skew. eapply r_bind; [apply r_refl|intros ? ? <-]. eapply (r_bind (Forall2 (ss dp))); [sims|intros].
    eapply (r_bind (ss d0)); [|intros; sims]. eapply r_rmap; [eassumption|intros x x' Hx]. unfold skew_win. cbv zeta.
    assert (M : sp (win_mean w x) (win_mean w x')) by now apply win_mean_rel.
    assert (D : sim (2, 0)%Z (sum_dev2 (win_mean w x) x / fofnat w)%F (sum_dev2 (win_mean w x') x' / fofnat w)%F).
    { eapply (s_div_r c v Hc Hv). eapply s_conv; [eapply sum_dev2_rel; eassumption|dimeq]. }
    assert (T : sim (3, 0)%Z (fold_left (fun acc y => acc + powi3 (y - win_mean w x)) x (flit 0 1) / fofnat w)%F
       (fold_left (fun acc y => acc + powi3 (y - win_mean w x')) x' (flit 0 1) / fofnat w)%F).
    { eapply (s_div_r c v Hc Hv). eapply (f2_fold _ (Scale.sim c v (3, 0)%Z)); [exact Hx|sims|]. intros. sims. }
    apply s_pow32 in D. revert D T. generalize (fpow (sum_dev2 (win_mean w x) x / fofnat w) (#3 / #2))%F (fpow (sum_dev2 (win_mean w x') x' / fofnat w) (#3 / #2))%F.
    intros. do 3 (eapply r_bind; [apply r_refl|intros ? ? <-]). apply r_ok. sims.
  Qed.

  (** *** ranks: the order in which the sort leaves the indices must not depend on the unit *)
  Lemma uniq_flags_rel d l l' : ss d l l' -> uniq_flags l' = uniq_flags l.
  Proof.
    intros H. unfold uniq_flags. destruct H as [|x x' l l' Hx Hl]; [easy|]. do 2 f_equal. revert x x' Hx.
    induction Hl as [|y y' l l' Hy Hl IH]; intros x x' Hx; cbn [scan]; [easy|]. f_equal; [sims|]. now apply IH.
  Qed.
  Lemma rank_rel d srt l l' m : ss d l l' -> srt l' = srt l -> rank srt l' m = rank srt l m.
  Proof.
    intros H Hs. unfold rank, argsort. rewrite (f2_length _ _ _ H), Hs.
    assert (E : existsb fisnan l' = existsb fisnan l).
    { clear Hs. induction H; cbn; [easy|]. f_equal; [eapply s_isnan; eassumption|easy]. }
    rewrite E. destruct (_ && _); cbn [bind]; [easy|].
    assert (S : rrel (ss d) (rmap (idx l) (srt l)) (rmap (idx l') (srt l))).
    { eapply r_rmap; [apply f2_refl|]. intros i ? <-. now apply r_idx. }
    destruct (rmap (idx l) (srt l)) as [s|], (rmap (idx l') (srt l)) as [s'|]; cbn [rrel] in S; try easy.
    cbn [bind]. now rewrite (uniq_flags_rel d s s' S).
  Qed.

  (** *** correlation.rs: the two series may have different units *)
  Lemma zip_windows_rel d e l l' k k' w : ss d l l' -> ss e k k' ->
    rrel (Forall2 (prel (ss d) (ss e))) (zip_windows w l k) (zip_windows w l' k').
  Proof. intros. unfold zip_windows. sims. Qed.
  Lemma pcc_rel l l' k k' w : ss dp l l' -> ss dv k k' -> rrel (ss d0) (pcc l k w) (pcc l' k' w).
  Proof.
    intros. unfold pcc. eapply r_bind; [apply r_refl|intros ? ? <-]. eapply r_bind; [apply zip_windows_rel; eassumption|intros].
    apply r_ok. apply f2_app; [|apply f2_repeat, s_nan]. eapply f2_map; [eassumption|]. intros [x y] [x' y'] [Hx Hy]. cbn [fst snd] in *.
    unfold pcc_win, pcc_sums. cbn [fst snd].
    folds (prel (prel (prel (P2 dpv dp) sv) (sim (2, 0)%Z)) (sim (0, 2)%Z)); sims.
  Qed.
  Lemma rsq_rel l l' k k' w : ss dp l l' -> ss dv k k' -> rrel (ss d0) (rsq l k w) (rsq l' k' w).
  Proof. intros. unfold rsq. eapply r_bind; [apply pcc_rel; eassumption|intros]. sims. Qed.
  Lemma returns_rel d l l' : ss d l l' -> returns l' = returns l.
  Proof. intros. apply (f2_same0 c v). unfold returns. sims. Qed.
  Lemma beta_rel d e l l' k k' w : ss d l l' -> ss e k k' -> beta l' k' w = beta l k w.
  Proof. intros. unfold beta. now rewrite (returns_rel d l l'), (returns_rel e k k'). Qed.
  Lemma perf_rel l l' k k' w : ss dp l l' -> ss dv k k' -> rrel (ss d0) (perf l k w) (perf l' k' w).
  Proof. intros. unfold perf. sims. Qed.
  Lemma rsc_rel l l' k k' : ss dp l l' -> ss dv k k' -> ss (1, -1)%Z (rsc l k) (rsc l' k').
  Proof. intros. unfold rsc. sims. Qed.
  Lemma srcc_rel srt l l' k k' w : (forall d a a', ss d a a' -> srt a' = srt a) -> ss dp l l' -> ss dv k k' ->
    rrel (ss d0) (srcc srt l k w) (srcc srt l' k' w).
  Proof.
    intros Hs. intros. unfold srcc. eapply r_bind; [apply r_refl|intros ? ? <-]. eapply r_bind; [apply zip_windows_rel; eassumption|intros].
    eapply (r_bind (ss d0)); [|intros; sims]. eapply r_rmap; [eassumption|]. intros [x y] [x' y'] [Hx Hy]. cbn [fst snd] in *.
    unfold srcc_win. cbn [fst snd]. rewrite (rank_rel dp srt x x'), (rank_rel dv srt y y') by eauto.
    do 2 (eapply r_bind; [apply r_refl|intros ? ? <-]). eapply r_bind; [apply r_refl|intros [[] ?] ? <-]. sims.
  Qed.
  Lemma krcc_rel l l' k k' w : ss dp l l' -> ss dv k k' -> rrel (ss d0) (krcc l k w) (krcc l' k' w).
  Proof.
    intros. unfold krcc. eapply r_bind; [apply r_refl|intros ? ? <-]. eapply r_bind; [apply zip_windows_rel; eassumption|intros].
    eapply (r_bind (ss d0)); [|intros; sims]. eapply r_rmap; [eassumption|]. intros [x y] [x' y'] [Hx Hy]. cbn [fst snd] in *.
    assert (E : krcc_counts w x' y' = krcc_counts w x y).
    { unfold krcc_counts. generalize (#0, #0, #0, #0 : xr)%F. induction (krcc_pairs w) as [|[i j] ps IH]; intros z; cbn [fold_left]; [easy|].
      rewrite IH. f_equal. destruct z as [[[? ?] ?] ?]. cbv zeta.
      assert (X : forall i, sp (at_ x i) (at_ x' i)) by (intros; sims). assert (Y : forall i, sv (at_ y i) (at_ y' i)) by (intros; sims).
      rewrite (s_signum c v Hc Hv dp (at_ x i - at_ x j)%F (at_ x' i - at_ x' j)%F) by sims.
      rewrite (s_signum c v Hc Hv dv (at_ y i - at_ y j)%F (at_ y' i - at_ y' j)%F) by sims.
      unfold fneb. rewrite (s_eqb c v Hc Hv dp _ _ _ _ (X i) (X j)), (s_eqb c v Hc Hv dv _ _ _ _ (Y i) (Y j)). reflexivity. }
    unfold krcc_win. cbn [fst snd]. rewrite E. destruct (krcc_counts w x y) as [[[? ?] ?] ?].
    eapply r_bind; [apply r_refl|intros ? ? <-]. sims.
  Qed.
  Lemma hoeffd_rel srt l l' k k' w : (forall d a a', ss d a a' -> srt a' = srt a) -> ss dp l l' -> ss dv k k' ->
    rrel (ss d0) (hoeffd srt l k w) (hoeffd srt l' k' w).
  Proof.
    intros Hs. intros. unfold hoeffd. eapply r_bind; [apply r_refl|intros ? ? <-]. eapply r_bind; [apply zip_windows_rel; eassumption|intros].
    eapply (r_bind (ss d0)); [|intros; sims]. eapply r_rmap; [eassumption|]. intros [x y] [x' y'] [Hx Hy]. cbn [fst snd] in *.
    unfold hoeffd_win. cbn [fst snd]. rewrite (rank_rel dp srt x x'), (rank_rel dv srt y y') by eauto.
    do 2 (eapply r_bind; [apply r_refl|intros ? ? <-]). destruct (hoeffd_sums _ _ _) as [[? ?] ?]. cbv zeta.
    do 9 (eapply r_bind; [apply r_refl|intros ? ? <-]). sims.
  Qed.
  Lemma dist_rel d l l' i j : ss d l l' -> sim d (dist l i j) (dist l' i j).
  Proof. intros. unfold dist. sims. Qed.
  Ltac hookB ::= match goal with |- Scale.sim c v _ (dist _ _ _) _ => eapply dist_rel end.
  Lemma centred_matrix_rel d l l' : ss d l l' -> ss d (centred_matrix l) (centred_matrix l').
  Proof.
    intros H. unfold centred_matrix. cbv zeta. lens.
    assert (Rm : ss d (map (row_mean l) (seq 0 (length l))) (map (row_mean l') (seq 0 (length l)))).
    { eapply f2_map; [apply f2_refl|]. intros i ? <-. unfold row_mean. lens. sims. }
    assert (Mm : sim d (matrix_mean l) (matrix_mean l')).
    { unfold matrix_mean. cbv zeta. lens. eapply (s_div_r c v Hc Hv). apply s_sub.
      - eapply (f2_fold eq (sim d)); [apply f2_refl|sims|]. intros s s' [i j] ? Hss <-. sims.
      - eapply (f2_fold eq (sim d)); [apply f2_refl|sims|]. intros s s' i ? Hss <-. sims. }
    eapply f2_flat_map; [apply f2_refl|]. intros i ? <-. eapply f2_map; [apply f2_refl|]. intros j ? <-.
    unfold centred. cbv zeta. sims.
  Qed.
  Lemma s_sqrt_ratio d a a' b b' : sim d a a' -> sim d b b' -> sim d0 (fdiv (fsqrt a) (fsqrt b)) (fdiv (fsqrt a') (fsqrt b')).
  Proof.
    unfold Scale.sim. intros -> ->. rewrite unit_0, sc_1. change (@fdiv xr XR) with xdiv. change (@fsqrt xr XR) with xsqrt.
    pose proof (unit_pos c v Hc Hv d) as P. pose proof (sqrt_lt_R0 _ P).
    rewrite <- (sqrt_def (unit c v d)) by lra. rewrite !sc_sqrt, sc_div by assumption.
    rewrite <- (sc_1 (xdiv _ _)) at 2. f_equal. field. lra.
  Qed.
  Lemma dcor_rel l l' k k' w : ss dp l l' -> ss dv k k' -> rrel (ss d0) (dcor l k w) (dcor l' k' w).
  Proof.
    intros. unfold dcor. eapply r_bind; [apply r_refl|intros ? ? <-]. eapply r_bind; [apply zip_windows_rel; eassumption|intros].
    apply r_ok. apply f2_app; [|apply f2_repeat, s_nan]. eapply f2_map; [eassumption|]. intros [x y] [x' y'] [Hx Hy]. cbn [fst snd] in *.
    unfold dcor_win. cbn [fst snd]. cbv zeta. pose proof (centred_matrix_rel dp x x' Hx) as Cx. pose proof (centred_matrix_rel dv y y' Hy) as Cy.
    revert Cx Cy. generalize (centred_matrix x) (centred_matrix x') (centred_matrix y) (centred_matrix y'). intros p p' q q' Cx Cy.
    assert (N : sim dpv (fsum (map (fun '(a, b) => (a * b)%F) (combine p q)) / fofnat (w * w))%F (fsum (map (fun '(a, b) => (a * b)%F) (combine p' q')) / fofnat (w * w))%F) by sims.
    assert (Dx : sp (fsqrt (fsum (map (fun a => a * a) p) / fofnat (w * w)))%F (fsqrt (fsum (map (fun a => a * a) p') / fofnat (w * w)))%F).
    { eapply (s_sqrt c v Hc Hv (2, 0)%Z); [|reflexivity..]. sims. }
    assert (Dy : sv (fsqrt (fsum (map (fun a => a * a) q) / fofnat (w * w)))%F (fsqrt (fsum (map (fun a => a * a) q') / fofnat (w * w)))%F).
    { eapply (s_sqrt c v Hc Hv (0, 2)%Z); [|reflexivity..]. sims. }
    eapply s_sqrt_ratio; [exact N|]. sims.
  Qed.

  (** *** Folds that start from [f64::MAX] and [f64::MIN]: the seeds disappear as
      soon as one value within range has been seen. *)
  Definition within (x : xr) : Prop := exists r, x = Fin r /\ (- IZR (2 ^ 1024 - 2 ^ 971) <= r <= IZR (2 ^ 1024 - 2 ^ 971))%R.
  Lemma seed_min x : within x -> fmin fmaxval x = x.
  Proof.
    intros (r & -> & H). change (@fmaxval xr XR) with (Fin (IZR (2 ^ 1024 - 2 ^ 971))). revert H. generalize (IZR (2 ^ 1024 - 2 ^ 971)). intros M H.
    rewrite x_min. f_equal. apply Rmin_right. lra.
  Qed.
  Lemma seed_max x : within x -> fmax fminval x = x.
  Proof.
    intros (r & -> & H). unfold fminval. change (@fmaxval xr XR) with (Fin (IZR (2 ^ 1024 - 2 ^ 971))). revert H. generalize (IZR (2 ^ 1024 - 2 ^ 971)). intros M H.
    rewrite x_neg, x_max. f_equal. apply Rmax_right. lra.
  Qed.
  Lemma bin_rel d l l' n : Forall within l -> Forall within l' -> ss d l l' -> bin l' n = bin l n.
  Proof.
    intros W W' H. unfold bin.
    match goal with |- context [fold_left ?g l' _] => set (f := g) end.
    assert (E : l <> [] -> P2 d d (fold_left f l (fmaxval, fminval)) (fold_left f l' (fmaxval, fminval))).
    { destruct H as [|x x' l l' Hx Hl]; [easy|]. intros _. inversion_clear W as [|? ? W1 _]. inversion_clear W' as [|? ? W1' _].
      cbn [fold_left]. unfold f at 2 4. rewrite !seed_min, !seed_max by assumption.
      eapply f2_fold; [exact Hl|split; exact Hx|]. intros. brk. unfold f. sims. }
    destruct l as [|x l]; [inversion H; subst; now destruct (fold_left f [] _)|]. specialize (E ltac:(easy)).
    revert E. generalize (fold_left f (x :: l) (fmaxval, fminval)) (fold_left f l' (fmaxval, fminval)). intros [mn mx] [mn' mx'] [Hn Hm]. cbn [fst snd] in *.
    cbv zeta. clear W W'. induction H as [|y y' k k' Hy Hk IH]; cbn [map]; [easy|]. f_equal; [|exact IH].
    do 3 f_equal. apply (s_eq c v). sims.
  Qed.
  Lemma in_firstn {A} n (l : list A) y : In y (firstn n l) -> In y l.
  Proof. intros H. rewrite <- (firstn_skipn n l). apply in_or_app. now left. Qed.
  Lemma in_skipn {A} n (l : list A) y : In y (skipn n l) -> In y l.
  Proof. intros H. rewrite <- (firstn_skipn n l). apply in_or_app. now right. Qed.
  Lemma forall_windows {A} (P : A -> Prop) w l : Forall P l -> Forall (Forall P) (windows w l).
  Proof.
    intros H. apply Forall_forall. intros x Hx. apply In_windows in Hx as (i & _ & ->). apply Forall_forall. intros y Hy.
    rewrite Forall_forall in H. apply H. apply in_firstn in Hy. now apply in_skipn in Hy.
  Qed.
  Lemma mic_rel ord l l' k k' w : Forall within l -> Forall within l' -> Forall within k -> Forall within k' ->
    ss dp l l' -> ss dv k k' -> mic ord l' k' w = mic ord l k w.
  Proof.
    intros Wl Wl' Wk Wk' Hl Hk. unfold mic. destruct (usub w 1); cbn [bind]; [|easy]. unfold zip_windows, rwindows.
    destruct (w =? 0)%nat; cbn [bind]; [easy|]. do 2 f_equal.
    apply (forall_windows _ w) in Wl, Wl', Wk, Wk'. apply (f2_windows _ w) in Hl, Hk.
    revert Wl Wl' Wk Wk' Hl Hk. generalize (windows w l) (windows w l') (windows w k) (windows w k'). clear - Hc Hv. intros a a' b b' Wa Wa' Wb Wb' Ha. revert b b' Wb Wb'.
    induction Ha as [|x x' a a' Hx Ha IH]; intros b b' Wb Wb' Hb; [easy|]. destruct Hb as [|y y' b b' Hy Hb]; [easy|].
    apply Forall_cons_iff in Wa, Wa', Wb, Wb'. cbn [combine map]. f_equal; [|apply IH; tauto].
    unfold mic_win. cbn [fst snd]. match goal with |- fold_left ?f _ _ = fold_left ?g _ _ => assert (E : forall s p, f s p = g s p) end.
    { intros s [i j]. now rewrite (bin_rel dp x x'), (bin_rel dv y y') by tauto. }
    match goal with |- fold_left _ ?gl ?s = _ => generalize s; induction gl as [|p l IHl]; intros z; cbn [fold_left]; [easy|] end.
    now rewrite E, IHl.
  Qed.
  Lemma s_ln_ratio d a a' b b' : sim d a a' -> sim d b b' -> fsub (fln a') (fln b') = fsub (fln a) (fln b).
  Proof.
    unfold Scale.sim. intros -> ->. pose proof (unit_pos c v Hc Hv d) as P. revert P. generalize (unit c v d). intros k P.
    assert (Q : forall r, Rltb 0 (k * r) = Rltb 0 r) by (intros r; rewrite <- (Rltb_scale k 0 r) by exact P; now rewrite Rmult_0_r).
    destruct a as [x|s|], b as [y|t|]; cbn [sc fln fsub XR xmap]; rewrite ?Q, ?Req_scale0 by exact P;
      repeat match goal with |- context [Rltb 0 ?r] => destruct (Rltb 0 r) eqn:?E | |- context [Req ?r 0] => destruct (Req r 0) eqn:?E | |- context [if ?s then _ else _] => destruct s end;
      try reflexivity.
    apply Rltb_true in E, E0. cbn. f_equal. rewrite !ln_mult by assumption. ring.
  Qed.
  Definition frama_rel_w : (xr * xr * xr * xr) -> (xr * xr * xr * xr) -> Prop := prel (prel (P2 dp dp) sp) sp.
  Lemma frama_rel l l' w : Forall within l -> Forall within l' -> ss dp l l' ->
    rrel (orel (ss dp)) (frama l w) (frama l' w).
  Proof.
    intros W W' H. unfold frama. destruct (_ =? 0)%nat eqn:Ew; cbn [negb]; [|now apply r_ok].
    destruct (Nat.eq_dec w 0) as [->|Hw]; [exact I|]. apply Nat.eqb_eq in Ew.
    assert (H2 : (1 <= w / 2)%nat). { apply Nat.div_le_lower_bound; [easy|]. destruct w as [|[|]]; [easy|easy|lia]. }
    eapply r_bind; [apply r_refl|intros k ? <-]. unfold rwindows. destruct (w =? 0)%nat; cbn [bind]; [easy|]. apply r_ok. cbn [orel].
    apply f2_app; [|apply f2_repeat, s_nan].
    assert (L : forall x, In x (windows w l) -> length x = w) by (intros; eapply windows_length; [|eassumption]; lia).
    apply (forall_windows _ w) in W, W'. apply (f2_windows _ w) in H. revert W W' H L. generalize (windows w l) (windows w l').
    intros a a' W W' H L. assert (Z : sp (#0)%F (#0)%F) by sims. revert Z. generalize (#0 : xr)%F at 1 3. generalize (#0 : xr)%F. intros s' s Hs.
    revert s s' Hs. induction H as [|x x' a a' Hx Ha IH]; intros s s' Hs; [constructor|].
    apply Forall_cons_iff in W, W'. cbn [scan].
    assert (E : sp (fst (frama_step w s x)) (fst (frama_step w s' x')) /\ sp (snd (frama_step w s x)) (snd (frama_step w s' x'))).
    { unfold frama_step. cbv zeta.
      assert (Q : Forall2 (P2 dp dp) (combine (firstn (w / 2) x) (firstn (w / 2) (rev x))) (combine (firstn (w / 2) x') (firstn (w / 2) (rev x')))) by sims.
      assert (Qw : forall p, In p (combine (firstn (w / 2) x) (firstn (w / 2) (rev x))) -> within (fst p) /\ within (snd p)).
      { intros [u t] I. destruct W as [W _]. rewrite Forall_forall in W. split; apply W; cbn [fst snd].
        - apply in_combine_l in I. now apply in_firstn in I.
        - apply in_combine_r in I. apply in_firstn in I. now apply in_rev. }
      assert (Qw' : forall p, In p (combine (firstn (w / 2) x') (firstn (w / 2) (rev x'))) -> within (fst p) /\ within (snd p)).
      { intros [u t] I. destruct W' as [W' _]. rewrite Forall_forall in W'. split; apply W'; cbn [fst snd].
        - apply in_combine_l in I. now apply in_firstn in I.
        - apply in_combine_r in I. apply in_firstn in I. now apply in_rev. }
      assert (Qn : combine (firstn (w / 2) x) (firstn (w / 2) (rev x)) <> []).
      { intros E. apply (f_equal (@length _)) in E. rewrite combine_length, !firstn_length, rev_length, (L x) in E by now left. cbn [length] in E.
        assert (w / 2 <= w)%nat by (apply Nat.div_le_upper_bound; lia). lia. }
      revert Q Qw Qw' Qn. generalize (combine (firstn (w / 2) x) (firstn (w / 2) (rev x))) (combine (firstn (w / 2) x') (firstn (w / 2) (rev x'))).
      intros q q' Q Qw Qw' Qn. destruct Q as [|[p1 p2] [p1' p2'] q q' [Hp1 Hp2] Q]; [easy|]. cbn [fst snd] in *. cbn [fold_left].
      destruct (Qw (p1, p2)) as [A1 A2]; [now left|]. destruct (Qw' (p1', p2')) as [B1 B2]; [now left|]. cbn [fst snd] in *.
      rewrite !seed_min, !seed_max by assumption.
      match goal with |- context [fold_left ?f q ?z] => match goal with |- context [fold_left ?f' q' ?z'] =>
        assert (E : frama_rel_w (fold_left f q z) (fold_left f' q' z')) end end.
      { eapply f2_fold; [exact Q|unfold frama_rel_w; sims|]. unfold frama_rel_w. intros. brk. sims. }
      revert E. match goal with |- frama_rel_w ?u ?z -> _ => generalize u z end. unfold frama_rel_w. intros. brk.
      match goal with |- context [fsub (fln ?t) (fln ?u)] => match goal with |- context [fsub (fln ?t') (fln ?u')] =>
        tryif constr_eq t t' then fail else
        (assert (E : fsub (fln t') (fln u') = fsub (fln t) (fln u)) by (eapply (s_ln_ratio dp); sims); rewrite E) end end.
      match goal with |- context [fclamp_val ?u ?lo ?hi] => generalize (fclamp_val u lo hi) end. intros al. cbn [fst snd]. split; sims. }
    destruct (frama_step w s x), (frama_step w s' x'). cbn [fst snd] in E. constructor; [apply E|]. apply IH; try tauto. intros; apply L; now right.
  Qed.

  (** *** Extremes with a seed *)
  Lemma x_min_assoc (a b e : xr) : fmin (fmin a b) e = fmin a (fmin b e).
  Proof.
    destruct a as [a|[]|], b as [b|[]|], e as [e|[]|]; rewrite ?x_min; try reflexivity; try (symmetry; exact (x_min a b)); try (exact (x_min b e)). f_equal. unfold Rmin. repeat destruct (Rle_dec _ _); lra.
  Qed.
  Lemma x_max_assoc (a b e : xr) : fmax (fmax a b) e = fmax a (fmax b e).
  Proof.
    destruct a as [a|[]|], b as [b|[]|], e as [e|[]|]; rewrite ?x_max; try reflexivity; try (symmetry; exact (x_max a b)); try (exact (x_max b e)). f_equal. unfold Rmax. repeat destruct (Rle_dec _ _); lra.
  Qed.
  Lemma x_min_none (a : xr) : fmin a NaN = a. Proof. now destruct a. Qed.
  Lemma x_max_none (a : xr) : fmax a NaN = a. Proof. now destruct a. Qed.
  Definition below (x : xr) : Prop := forall r, x = Fin r -> (r < IZR (2 ^ 1024 - 2 ^ 971) /\ c * r <= IZR (2 ^ 1024 - 2 ^ 971))%R.
  Lemma cks_fold (l : list (xr * xr)) a b : exists m, fold_left (fun '(hh, ll) '(h, l) => (fmax hh h, fmin ll l)) l (a, b) =
    (fst (fold_left (fun '(hh, ll) '(h, l) => (fmax hh h, fmin ll l)) l (a, NaN)), fmin b m) /\ snd (fold_left (fun '(hh, ll) '(h, l) => (fmax hh h, fmin ll l)) l (a, NaN)) = m.
  Proof.
    eexists. split; [|reflexivity]. revert a b. induction l as [|[h q] l IH]; intros a b; cbn [fold_left fst snd]; [now rewrite x_min_none|].
    rewrite IH, (IH _ (fmin NaN q)). cbn [fst snd]. rewrite x_min_nan_l. f_equal. apply x_min_assoc.
  Qed.
  Lemma cks_win_rel w w' : Forall2 (P2 dp dp) w w' -> below (snd (cks_win w)) -> P2 dp dp (cks_win w) (cks_win w').
  Proof.
    intros H. unfold cks_win. destruct (cks_fold w (flit 0 1) fmaxval) as (m & E & Em). destruct (cks_fold w' (flit 0 1) fmaxval) as (m' & E' & Em').
    rewrite E, E'. cbn [snd]. intros B.
    assert (Q : P2 dp dp (fold_left (fun '(hh, ll) '(h, l) => (fmax hh h, fmin ll l)) w (flit 0 1, NaN)) (fold_left (fun '(hh, ll) '(h, l) => (fmax hh h, fmin ll l)) w' (flit 0 1, NaN))).
    { eapply f2_fold; [exact H|split; cbn [fst snd]; [sims|easy]|]. intros. brk. sims. }
    destruct Q as [Q1 Q2]. rewrite Em, Em' in Q2. split; [exact Q1|]. cbn [snd]. unfold Scale.sim in *. rewrite unit_p in *. rewrite Q2. revert B.
    change (@fmaxval xr XR) with (Fin (IZR (2 ^ 1024 - 2 ^ 971))). unfold below. generalize (IZR (2 ^ 1024 - 2 ^ 971)). intros M B.
    destruct m as [r|[]|]; cbn [sc]; rewrite ?x_min; cbn [sc]; try easy.
    - rewrite x_min in B. destruct (B _ eq_refl) as [B1 B2]. f_equal. revert B1 B2. unfold Rmin. destruct (Rle_dec M r), (Rle_dec M (c * r)); lra.
    - destruct (B M eq_refl). lra.
    - destruct (B M eq_refl). lra.
  Qed.
  Lemma cks_rel h h' l l' cl cl' p q m : ss dp h h' -> ss dp l l' -> ss dp cl cl' ->
    (forall o, cks h l cl p q m = Ok o -> Forall (fun x => below (snd x)) o) ->
    rrel (Forall2 (P2 dp dp)) (cks h l cl p q m) (cks h' l' cl' p q m).
  Proof.
    intros Hh Hl Hcl.
    set (W := fun h l cl => let* h1 := slice_from h 1 in let* wh := rwindows p h1 in let* l1 := slice_from l 1 in let* wl := rwindows p l1 in
       let* a := atr h l cl p in rwindows q (map (stop_win (unwrap_or m (flit 1 1))) (zip3 wh wl (skipn p a)))).
    assert (E : forall h l cl, cks h l cl p q m = let* k2 := usub q 1 in let* ws := W h l cl in Ok (pad (p + k2) (NaN, NaN) ++ map cks_win ws)).
    { intros. unfold cks, W. cbv zeta. destruct (usub q 1); cbn [bind]; [|easy]. destruct (slice_from _ 1); cbn [bind]; [|easy].
      destruct (rwindows p _); cbn [bind]; [|easy]. destruct (slice_from _ 1); cbn [bind]; [|easy]. destruct (rwindows p _); cbn [bind]; [|easy].
      destruct (atr _ _ _ _); cbn [bind]; [|easy]. now destruct (rwindows q _). }
    assert (R : rrel (Forall2 (Forall2 (P2 dp dp))) (W h l cl) (W h' l' cl')) by (unfold W, stop_win; sims).
    rewrite !E. destruct (usub q 1) as [k|]; cbn [bind]; [|easy]. destruct (W h l cl) as [ws|], (W h' l' cl') as [ws'|]; cbn [bind rrel] in *; try easy.
    intros B. specialize (B _ eq_refl). apply Forall_app in B as [_ B]. apply f2_app; [|clear; induction (p + k)%nat; now constructor].
    clear - R B Hc Hv. induction R; [constructor|]. apply Forall_cons_iff in B as [B1 B2]. constructor; [now apply cks_win_rel|auto].
  Qed.

  (** *** [hurst]: the last cumulative deviation is zero, so the seeds never show *)
  Lemma fin_dec (l : list xr) : (exists q, l = map Fin q) \/ exists x, In x l /\ (x = NaN \/ exists b, x = Inf b).
  Proof.
    induction l as [|a l [[q ->]|(x & Hx & D)]]; [left; now exists []| |right; exists x; split; [now right|easy]].
    destruct a as [r|b|]; [left; now exists (r :: q)|right..]; eexists; (split; [now left|]); eauto.
  Qed.
  Lemma fold_add_nan l : fold_left fadd l NaN = NaN.
  Proof. induction l; cbn; auto. Qed.
  Lemma fold_add_inf l b : fold_left fadd l (Inf b) = Inf b \/ fold_left fadd l (Inf b) = NaN.
  Proof.
    induction l as [|a l IH]; cbn; [now left|]. destruct a as [r|s|]; cbn [xadd]; [exact IH| |right; apply fold_add_nan].
    destruct (Bool.eqb b s); [exact IH|right; apply fold_add_nan].
  Qed.
  Lemma fold_add_bad l x : In x l -> (x = NaN \/ exists b, x = Inf b) -> forall a, fold_left fadd l a = NaN \/ exists b, x = Inf b /\ fold_left fadd l a = Inf b.
  Proof.
    intros Hx D. induction l as [|y l IH]; [easy|]. intros a. destruct Hx as [->|Hx]; [|apply IH, Hx]. cbn [fold_left].
    destruct D as [->|[b ->]]; [left; destruct a; apply fold_add_nan|].
    assert (Q : fadd a (Inf b) = Inf b \/ fadd a (Inf b) = NaN).
    { destruct a as [r|s|]; cbn; [now left| |now right]. destruct s, b; cbn; auto. }
    destruct Q as [-> | ->]; [|left; apply fold_add_nan].
    destruct (fold_add_inf l b) as [E1| ->]; [right; exists b; now split|now left].
  Qed.
  Lemma hurst_var_nan avg l : forall m n k, snd (fold_left (hurst_step avg) l (m, n, k, NaN)) = NaN.
  Proof. induction l as [|a l IH]; intros; cbn [fold_left]; [easy|]. unfold hurst_step at 2. apply IH. Qed.
  Lemma hurst_rs_bad l x : In x l -> (x = NaN \/ exists b, x = Inf b) -> hurst_rs l = NaN.
  Proof.
    intros Hx D. unfold hurst_rs.
    assert (E : fsub x (fdiv (fsum l) (fofnat (length l))) = NaN).
    { unfold fsum. destruct (fold_add_bad l x Hx D fsum0) as [-> | (b & -> & ->)].
      - destruct x; reflexivity.
      - cbn. unfold fofnat. cbn. unfold xofN. cbn [xdiv]. assert (Rltb (IZR (Z.of_N (N.of_nat (length l)))) 0 = false) as ->.
        { apply Rltb_false. apply IZR_le. lia. } now destruct b. }
    assert (V : forall st, snd (fold_left (hurst_step (fdiv (fsum l) (fofnat (length l)))) l st) = NaN).
    { revert E. generalize (fdiv (fsum l) (fofnat (length l))). intros avg E. clear D. induction l as [|y l IH]; [easy|]. intros [[[m n] k] va]. cbn [fold_left].
      destruct Hx as [->|Hx]; [|now apply IH]. unfold hurst_step at 2. rewrite E. replace (fadd va (fmul NaN NaN)) with NaN by (now destruct va). apply hurst_var_nan. }
    specialize (V (fminval, fmaxval, flit 0 1, flit 0 1)). destruct (fold_left _ l _) as [[[m n] k] va]. cbn [snd] in V. subst va.
    cbn [fdiv fsqrt XR xdiv xsqrt]. destruct (fsub m n); reflexivity.
  Qed.
  Lemma hurst_seed avg l : forall m n k va, fold_left (hurst_step avg) l (m, n, k, va) =
    let '(m', n', k', va') := fold_left (hurst_step avg) l (NaN, NaN, k, va) in (fmax m m', fmin n n', k', va').
  Proof.
    induction l as [|a l IH]; intros; cbn [fold_left]; [now rewrite x_max_none, x_min_none|]. unfold hurst_step at 2 4. rewrite IH, (IH (fmax NaN _)).
    destruct (fold_left _ l _) as [[[m' n'] k'] va']. rewrite x_max_nan_l, x_min_nan_l, x_max_assoc, x_min_assoc. reflexivity.
  Qed.
  Lemma hurst_last avg q : forall k va, q <> [] -> exists m n s, fold_left (hurst_step (Fin avg)) (map Fin q) (NaN, NaN, Fin k, Fin va) = (Fin m, Fin n, Fin (k + Rsum (map (fun x => (x - avg)%R) q)), Fin s) /\
    (n <= k + Rsum (map (fun x => x - avg) q) <= m)%R.
  Proof.
    induction q as [|a q IH]; intros k va N; [easy|]. cbn [map fold_left]. unfold hurst_step at 2. rewrite x_max_nan_l, x_min_nan_l, x_sub, x_add, x_mul, x_add.
    rewrite Rsum_cons. destruct q as [|b q].
    - cbn [map fold_left]. rewrite Rsum_nil. replace (k + (a - avg + 0))%R with (k + (a - avg))%R by ring. do 3 eexists. split; [reflexivity|]. split; apply Rle_refl.
    - rewrite hurst_seed. destruct (IH (k + (a - avg)) (va + (a - avg) * (a - avg)))%R as (m & n & s & E & B); [easy|]. rewrite E. rewrite x_max, x_min.
      replace (k + (a - avg + Rsum (map (fun x => (x - avg)%R) (b :: q))))%R with (k + (a - avg) + Rsum (map (fun x => (x - avg)%R) (b :: q)))%R by ring.
      do 3 eexists. split; [reflexivity|]. revert B. unfold Rmax, Rmin. repeat destruct (Rle_dec _ _); lra.
  Qed.
  Lemma Rsum_shift a q : Rsum (map (fun x => (x - a)%R) q) = (Rsum q - a * INR (length q))%R.
  Proof. induction q as [|b q IH]; [rewrite !Rsum_nil; cbn; ring|]. cbn [map length]. rewrite !Rsum_cons, IH, S_INR. ring. Qed.
  Lemma max_f64_pos : (0 < IZR (2 ^ 1024 - 2 ^ 971))%R.
  Proof. apply IZR_lt. now vm_compute. Qed.
  Lemma seed0_max m : (0 <= m)%R -> fmax fminval (Fin m) = Fin m.
  Proof.
    intros H. change (@fminval xr XR) with (Fin (- IZR (2 ^ 1024 - 2 ^ 971))). pose proof max_f64_pos as P. revert P. generalize (IZR (2 ^ 1024 - 2 ^ 971)). intros M P.
    rewrite x_max. f_equal. apply Rmax_right. lra.
  Qed.
  Lemma seed0_min n : (n <= 0)%R -> fmin fmaxval (Fin n) = Fin n.
  Proof.
    intros H. change (@fmaxval xr XR) with (Fin (IZR (2 ^ 1024 - 2 ^ 971))). pose proof max_f64_pos as P. revert P. generalize (IZR (2 ^ 1024 - 2 ^ 971)). intros M P.
    rewrite x_min. f_equal. apply Rmin_right. lra.
  Qed.
  Lemma hurst_rs_rel l l' : ss dp l l' -> l <> [] -> hurst_rs l' = hurst_rs l.
  Proof.
    intros H N. destruct (fin_dec l) as [[q Eq]|(x & Hx & D)].
    - assert (exists q', l' = map Fin q') as [q' Eq'].
      { apply f2_scaled in H. subst. exists (map (Rmult (unit c v dp)) q). unfold scaled. rewrite !map_map. now apply map_ext. }
      assert (Nq : q <> []) by (intros ->; now apply N). assert (Nq' : q' <> []) by (intros ->; apply f2_length in H; subst; now destruct q).
      assert (G : forall q, q <> [] -> exists m n s, fold_left (hurst_step (fdiv (fsum (map Fin q)) (fofnat (length (map Fin q))))) (map Fin q) (NaN, NaN, flit 0 1, flit 0 1) = (Fin m, Fin n, Fin 0, Fin s) /\ (n <= 0 <= m)%R).
      { clear. intros q N. assert (0 < length q)%nat by (destruct q; [easy|cbn; lia]). rewrite map_length, x_fsum, x_nat, x_div by (apply INR_neq0; lia). rewrite x_lit.
        destruct (hurst_last (Rsum q / INR (length q)) q 0 0 N) as (m & n & s & E & B). rewrite Rsum_shift in E, B.
        replace (0 + (Rsum q - Rsum q / INR (length q) * INR (length q)))%R with 0%R in E, B by (field; apply INR_neq0; lia). now exists m, n, s. }
      destruct (G q Nq) as (m & n & s & E & B). destruct (G q' Nq') as (m' & n' & s' & E' & B').
      assert (Q : prel (prel (P2 dp dp) (sim dp)) (sim (dadd dp dp)) (fold_left (hurst_step (fdiv (fsum l) (fofnat (length l)))) l (NaN, NaN, flit 0 1, flit 0 1))
         (fold_left (hurst_step (fdiv (fsum l') (fofnat (length l')))) l' (NaN, NaN, flit 0 1, flit 0 1))).
      { clear - Hc Hv H. eapply f2_fold; [exact H|sims; reflexivity|]. intros. brk. unfold hurst_step. sims. }
      unfold hurst_rs. rewrite !(hurst_seed _ _ fminval). subst l l'. rewrite E, E' in *. clear E E' G. rewrite !seed0_max, !seed0_min by lra.
      rewrite !map_length in *. apply f2_length in H. rewrite !map_length in H. rewrite H. destruct Q as [[[Q1 Q2] _] Q4]. cbn [fst snd] in *. apply (s_eq c v). sims.
    - rewrite (hurst_rs_bad l x Hx D). apply f2_scaled in H. subst l'. eapply (hurst_rs_bad _ (sc (unit c v dp) x)); [now apply in_map|].
      destruct D as [-> | [b ->]]; [now left|right; now exists b].
  Qed.
  Lemma hurst_rel fuel l l' w m : ss dp l l' -> hurst fuel l' w m = hurst fuel l w m.
  Proof.
    intros H. unfold hurst. destruct (hurst_sizes _ _ _) as [sz|]; [|easy]. f_equal. generalize (map N.to_nat sz ++ [w]). intros sizes.
    apply (r_same0 c v). eapply r_bind; [apply r_refl|intros ? ? <-].
    eapply r_bind; [sims|intros ws ws' Hw]. eapply (r_bind (ss d0)); [|intros; sims]. eapply r_rmap; [exact Hw|]. clear - Hc Hv. intros x x' H. unfold hurst_win.
    assert (E : forall s, hurst_point x' s = hurst_point x s).
    { intros s. unfold hurst_point. destruct (Nat.eqb_spec s 0) as [|Hs]; [easy|]. cbv zeta. unfold chunks_exact. rewrite (f2_length _ _ _ H), !map_length. do 3 f_equal.
      assert (C : forall j, (j < length x / s)%nat -> hurst_rs (firstn s (skipn (j * s) x')) = hurst_rs (firstn s (skipn (j * s) x))).
      { intros j Hj. apply hurst_rs_rel; [sims|]. intros E. apply (f_equal (@length _)) in E. rewrite firstn_length, skipn_length in E. cbn [length] in E.
        assert (S j * s <= length x)%nat; [|lia]. transitivity (s * (length x / s))%nat; [rewrite Nat.mul_comm; now apply Nat.mul_le_mono_l|now apply Nat.mul_div_le]. }
      generalize (flit 0 1 : xr). assert (B : forall j, In j (seq 0 (length x / s)) -> (j < length x / s)%nat) by (intros j Hj; apply in_seq in Hj; lia).
      revert B. generalize (seq 0 (length x / s)). intros js. induction js as [|j js IH]; intros B z; cbn [map fold_left]; [reflexivity|].
      rewrite C by (apply B; now left). apply IH. intros; apply B; now right. }
    assert (F : rmap (hurst_point x') sizes = rmap (hurst_point x) sizes) by (induction sizes as [|s sizes IH]; cbn; [easy|]; now rewrite E, IH).
    rewrite F. destruct (rmap (hurst_point x) sizes); cbn [bind]; [apply (s_same c v)|exact I].
  Qed.
End ScaleRel.
