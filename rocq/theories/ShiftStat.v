(** * ShiftStat: the statistics run on data and on the same data plus a constant. *)

From Coq Require Import Reals Lra Lia.
From Flocq Require Import Core.
From Verif Require Import Base BaseFacts Num XReal XRFacts Scale Shift.
From Verif Require Import Distribution Regression Smooth Correlation Volatility Volume Trend Momentum.
From Verif Require Import RSpec DistReal CorrReal ShiftRel.
From Verif Require ScaleRel.
Local Unset Implicit Arguments.

Local Notation ss g := (Forall2 (Shift.sim g)).
Local Notation P2 a b := (prel (Shift.sim a) (Shift.sim b)).

(** ** distribution.rs *)

Lemma win_mean_sh g w l l' : (0 < w)%nat -> length l = w -> ss g l l' -> Shift.sim g (win_mean w l) (win_mean w l').
Proof. intros. unfold win_mean. sims. Qed.
Lemma sum_dev2_sh g m m' l l' : Shift.sim g m m' -> ss g l l' -> Shift.sim 0 (sum_dev2 m l) (sum_dev2 m' l').
Proof. intros. unfold sum_dev2. sims. Qed.
Ltac hook2 ::= match goal with
  | |- Shift.sim _ (win_mean _ _) _ => eapply win_mean_sh; [solve [lia]| |]
  | |- Shift.sim _ (sum_dev2 _ _) _ => eapply sum_dev2_sh
  end.
Lemma variance_sh g l l' w : ss g l l' -> rrel (ss 0) (variance l w) (variance l' w).
Proof. intros. unfold variance. sims. unfold variance_win. sims. Qed.
Lemma std_dev_raw_sh g l l' w : ss g l l' -> rrel (ss 0) (std_dev_raw l w) (std_dev_raw l' w).
Proof. intros. unfold std_dev_raw. sims. unfold std_dev_win. sims. Qed.
Lemma std_dev_sh g l l' w : ss g l l' -> rrel (ss 0) (std_dev l w) (std_dev l' w).
Proof. intros. unfold std_dev. sims. now apply std_dev_raw_sh with g. sims. Qed.
Lemma zscore_sh g l l' w : ss g l l' -> rrel (ss 0) (zscore l w) (zscore l' w).
Proof. intros. unfold zscore. sims. unfold zscore_win. sims. Qed.
Lemma mad_sh g l l' w : ss g l l' -> rrel (ss 0) (mad l w) (mad l' w).
Proof. intros. unfold mad. sims. unfold mad_win. sims. Qed.
Lemma kurtosis_sh g l l' w : ss g l l' -> rrel (ss 0) (kurtosis l w) (kurtosis l' w).
Proof. intros. unfold kurtosis. sims. unfold kurtosis_win. sims. Qed.
Lemma skew_sh g l l' w : ss g l l' -> rrel (ss 0) (skew l w) (skew l' w).
Proof. intros. unfold skew. sims. unfold skew_win. sims. Qed.

(** *** quantiles *)
Lemma swap_sh g l l' i j : ss g l l' -> rrel (ss g) (swap l i j) (swap l' i j).
Proof. intros. unfold swap. sims. Qed.
Lemma lomuto_sh g p p' js : Shift.sim g p p' -> forall l l' i, ss g l l' ->
  rrel (prel (ss g) eq) (lomuto fltb p js l i) (lomuto fltb p' js l' i).
Proof.
  intros Hp. induction js as [|j js IH]; intros l l' i Hl; cbn [lomuto]; [apply r_ok; split; easy|].
  eapply (r_bind (Shift.sim g)); [sims|intros]. apply r_if; [sims| |now apply IH].
  eapply r_bind; [apply (swap_sh g); assumption|intros]. now apply IH.
Qed.
Lemma quickselect_loop_sh g fuel k : forall l l' lo hi, ss g l l' ->
  orel (rrel (prel (ss g) (Shift.sim g))) (quickselect_loop fltb fuel l k lo hi) (quickselect_loop fltb fuel l' k lo hi).
Proof.
  induction fuel as [|fuel IH]; intros l l' lo hi Hl; cbn [quickselect_loop].
  all: destruct (lo <? hi)%nat; cbn [orel]; [|eapply (r_bind (Shift.sim g)); [sims|intros; apply r_ok; split; easy]]; try easy.
  assert (E : rrel (prel (ss g) eq)
    (let* pivot := idx l hi in let* '(data1, i) := lomuto fltb pivot (seq lo (hi - lo)) l lo in let* data2 := swap data1 i hi in Ok (data2, i))
    (let* pivot := idx l' hi in let* '(data1, i) := lomuto fltb pivot (seq lo (hi - lo)) l' lo in let* data2 := swap data1 i hi in Ok (data2, i))).
  { eapply (r_bind (Shift.sim g)); [sims|intros]. eapply r_bind; [apply (lomuto_sh g); assumption|intros [x i] [x' i'] [Hx Hi]]. cbn [fst snd] in *. subst.
    eapply r_bind; [apply (swap_sh g); assumption|intros]. apply r_ok. split; easy. }
  revert E. match goal with |- rrel _ ?u ?w -> _ => destruct u as [[x i]|], w as [[y i']|] end; cbn [rrel]; try easy.
  intros [Hx Hi]. cbn [fst snd] in *. subst i'. destruct (Nat.compare i k); cbn [orel].
  - eapply (r_bind (Shift.sim g)); [sims|intros; apply r_ok; split; easy].
  - now apply IH.
  - destruct (usub i 1); [now apply IH|easy].
Qed.
Lemma quickselect_sh g l l' k : ss g l l' -> rrel (prel (ss g) (Shift.sim g)) (quickselect fltb l k) (quickselect fltb l' k).
Proof.
  intros H. unfold quickselect. lens. eapply r_bind; [apply r_refl|intros ? ? <-].
  pose proof (quickselect_loop_sh g (length l) k l l' 0 a H) as E.
  destruct (quickselect_loop fltb (length l) l k 0 a), (quickselect_loop fltb (length l) l' k 0 a); cbn [orel] in *; easy.
Qed.
Lemma quantile_sh g l l' w q : ss g l l' -> rrel (ss g) (quantile l w (Fin q)) (quantile l' w (Fin q)).
Proof.
  intros. unfold quantile. eapply r_usub. intros W. eapply r_bind; [eapply r_rwindows; eassumption|intros].
  eapply (r_bind (ss g)); [|intros; sims]. eapply r_rmap; [eassumption|intros x x' (Hx & _ & _)]. unfold quantile_win.
  eapply r_usub. intros _. cbv zeta.
  assert (E : exists p, fmul (fofnat (w - 1)) (fdiv (fclamp_val (Fin q) (flit 0 1) (flit 100 1)) (flit 100 1)) = Fin p).
  { rewrite !x_lit, x_nat. unfold fclamp_val. destruct (fltb _ _); [|destruct (fltb _ _)]; rewrite x_div, x_mul by lra; eexists; reflexivity. }
  destruct E as [p ->]. destruct (feqb (ffract (Fin p)) (flit 0 1)) eqn:F.
  - eapply r_bind; [apply (quickselect_sh g); assumption|intros [] [] []]. now apply r_ok.
  - eapply r_bind; [apply (quickselect_sh g); assumption|intros [] [] []]. cbn [fst snd] in *.
    assert (C : (IZR (Zceil p) - IZR (Zfloor p) = 1)%R).
    { unfold ffract in F. cbn [ftrunc XR xmap] in F. rewrite x_sub, x_lit, x_eqb in F. apply Req_false in F.
      rewrite (Zceil_floor_neq p); [rewrite plus_IZR; ring|]. intros E. apply F.
      rewrite <- E, Ztrunc_IZR. ring. }
    change (fceil (Fin p)) with (Fin (IZR (Zceil p))). change (ffloor (Fin p)) with (Fin (IZR (Zfloor p))). rewrite !x_sub.
    eapply r_bind; [eapply r_slice_from; eassumption|intros].
    apply r_ok. eapply s_add; [eapply s_mulk; [eassumption|reflexivity|reflexivity]|eapply s_mulk; [|reflexivity|reflexivity]|].
    + eapply (f2_fold _ (Shift.sim g)); [eassumption|apply s_nan|]. intros. now apply s_min.
    + replace (IZR (Zceil p)) with (1 + IZR (Zfloor p))%R by lra. ring.
Qed.
Lemma median_sh g l l' w : ss g l l' -> rrel (ss g) (median l w) (median l' w).
Proof. intros. unfold median. rewrite x_lit. now apply quantile_sh. Qed.

(** *** entropies *)
Lemma run_match_sh g t a a' b b' : ss g a a' -> ss g b b' -> run_match t a' b' = run_match t a b.
Proof. intros. unfold run_match. f_equal. apply s_eq. sims. Qed.
Lemma run_sh g l l' m i : ss g l l' -> ss g (run l m i) (run l' m i).
Proof. intros. unfold run. sims. Qed.
Lemma rmap_same {A B} (f h : A -> result B) l : (forall x, f x = h x) -> rmap f l = rmap h l.
Proof. intros E. induction l as [|x l IH]; cbn; [easy|]. now rewrite E, IH. Qed.
Lemma phi_sh g t l l' m : ss g l l' -> phi t l' m = phi t l m.
Proof.
  intros Hl. unfold phi. rewrite (f2_length _ _ _ Hl). destruct (usub _ _); cbn [bind]; [|easy].
  erewrite rmap_same; [reflexivity|]. intros i. cbv beta. f_equal. apply map_ext. intros j.
  eapply run_match_sh; apply run_sh; exact Hl.
Qed.
Lemma matches_sh g t l l' m : ss g l l' -> matches t l' m = matches t l m.
Proof.
  intros Hl. unfold matches. rewrite (f2_length _ _ _ Hl). destruct (usub _ _); cbn [bind]; [|easy].
  erewrite map_ext; [reflexivity|]. intros [i j]. eapply run_match_sh; apply run_sh; exact Hl.
Qed.
Lemma entropy_tol_sh g t l l' : ss g l l' -> entropy_tol l' t = entropy_tol l t.
Proof.
  intros H. unfold entropy_tol. destruct t; [easy|]. rewrite (f2_length _ _ _ H).
  now rewrite (r_same0 _ _ (std_dev_raw_sh g l l' (length l) H)).
Qed.
Lemma approx_entropy_sh g l l' w r t : ss g l l' -> approx_entropy l' w r t = approx_entropy l w r t.
Proof.
  intros H. apply r_same0. unfold approx_entropy. cbv zeta. rewrite (entropy_tol_sh g t l l' H).
  eapply r_bind; [apply r_refl|intros a ? <-].
  eapply r_usub. intros _. eapply r_bind; [eapply r_rwindows; eassumption|intros]. eapply (r_bind (ss 0)); [|intros; sims].
  eapply r_rmap; [eassumption|intros x x' (Hx & _ & _)]. rewrite !(phi_sh g a x x' _ Hx). eapply r_bind; [apply r_refl|intros ? ? <-].
  eapply r_bind; [apply r_refl|intros ? ? <-]. sims.
Qed.
Lemma sample_entropy_sh g l l' w r t : ss g l l' -> sample_entropy l' w r t = sample_entropy l w r t.
Proof.
  intros H. apply r_same0. unfold sample_entropy. cbv zeta. rewrite (entropy_tol_sh g t l l' H).
  eapply r_bind; [apply r_refl|intros a ? <-].
  eapply r_usub. intros _. eapply r_bind; [eapply r_rwindows; eassumption|intros]. eapply (r_bind (ss 0)); [|intros; sims].
  eapply r_rmap; [eassumption|intros x x' (Hx & _ & _)]. rewrite !(matches_sh g a x x' _ Hx). eapply r_bind; [apply r_refl|intros ? ? <-].
  eapply r_bind; [apply r_refl|intros ? ? <-]. sims.
Qed.

(** *** ranks *)
Lemma uniq_flags_sh g l l' : ss g l l' -> uniq_flags l' = uniq_flags l.
Proof.
  intros H. unfold uniq_flags. destruct H as [|x x' l l' Hx Hl]; [easy|]. do 2 f_equal. revert x x' Hx.
  induction Hl as [|y y' l l' Hy Hl IH]; intros x x' Hx; cbn [scan]; [easy|]. f_equal; [sims|]. now apply IH.
Qed.
Lemma rank_sh g srt l l' m : ss g l l' -> srt l' = srt l -> rank srt l' m = rank srt l m.
Proof.
  intros H Hs. unfold rank, argsort. rewrite (f2_length _ _ _ H), Hs.
  assert (E : existsb fisnan l' = existsb fisnan l).
  { clear Hs. induction H; cbn; [easy|]. f_equal; [eapply s_isnan; eassumption|easy]. }
  rewrite E. destruct (_ && _); cbn [bind]; [easy|].
  assert (S : rrel (ss g) (rmap (idx l) (srt l)) (rmap (idx l') (srt l))).
  { eapply r_rmap; [apply f2_refl|]. intros i ? <-. now apply r_idx. }
  destruct (rmap (idx l) (srt l)) as [s|], (rmap (idx l') (srt l)) as [s'|]; cbn [rrel] in S; try easy.
  cbn [bind]. now rewrite (uniq_flags_sh g s s' S).
Qed.

(** ** regression.rs: observations and estimates are moved alike *)
Lemma obs_est_sh g l l' k k' : ss g l l' -> ss g k k' ->
  Forall2 (prel (prel eq (Shift.sim g)) (Shift.sim g)) (obs_est l k) (obs_est l' k').
Proof. intros. unfold obs_est. sims. Qed.
Lemma mse_sh g l l' k k' : ss g l l' -> ss g k k' -> ss 0 (mse l k) (mse l' k').
Proof.
  intros. unfold mse. eapply (f2_scan _ _ (Shift.sim 0)); [eapply obs_est_sh; eassumption|sims|].
  intros s s' [[c o] e] [[c' o'] e'] Hs [[Hc Ho] He]. cbn [fst snd] in *. subst c'. sims.
Qed.
Lemma rmse_sh g l l' k k' : ss g l l' -> ss g k k' -> ss 0 (rmse l k) (rmse l' k').
Proof.
  intros. unfold rmse. eapply (f2_scan _ _ (Shift.sim 0)); [eapply obs_est_sh; eassumption|sims|].
  intros s s' [[c o] e] [[c' o'] e'] Hs [[Hc Ho] He]. cbn [fst snd] in *. subst c'. sims.
Qed.
Lemma mae_sh g l l' k k' : ss g l l' -> ss g k k' -> ss 0 (mae l k) (mae l' k').
Proof.
  intros. unfold mae. eapply (f2_scan _ _ (Shift.sim 0)); [eapply obs_est_sh; eassumption|sims|].
  intros s s' [[c o] e] [[c' o'] e'] Hs [[Hc Ho] He]. cbn [fst snd] in *. subst c'. sims.
Qed.
Lemma mda_sh g l l' k k' : ss g l l' -> ss g k k' -> rrel (ss 0) (mda l k) (mda l' k').
Proof.
  intros. unfold mda. eapply r_bind; [eapply r_slice_from; eassumption|intros]. eapply r_bind; [eapply r_slice_from; eassumption|intros].
  eapply r_bind; [eapply r_idx; eassumption|intros]. apply r_ok. constructor; [apply s_nan|].
  eapply (f2_scan _ _ (P2 0 g)); [eapply obs_est_sh; eassumption|sims|].
  intros [h p] [h' p'] [[c o] e] [[c' o'] e'] [Hh Hp] [[Hc Ho] He]. cbn [fst snd] in *. subst c'. sims.
Qed.
Lemma mase_sh g l l' k k' : ss g l l' -> ss g k k' -> rrel (ss 0) (mase l k) (mase l' k').
Proof.
  intros H K. unfold mase. cbv zeta. rewrite (f2_same0 _ _ (mae_sh g l l' k k' H K)).
  assert (W : Forall2 (ss g) (firstn (length (skipn 1 (mae l k))) (windows 2 l)) (firstn (length (skipn 1 (mae l k))) (windows 2 l')))
    by (apply f2_firstn, f2_windows, H).
  eapply (r_bind (Forall2 (prel (ss g) eq))).
  - unfold zip_i32. rewrite (f2_length _ _ _ W). destruct (_ <? _)%N; [|easy]. apply r_ok. apply f2_combine; [exact W|apply f2_refl].
  - intros z z' Hz. apply r_ok. constructor; [apply s_nan|].
    match goal with |- Forall2 _ (map _ (combine _ ?u)) (map _ (combine _ ?v)) => assert (E : v = u) end; [|rewrite E; sims].
    apply f2_same0. eapply (f2_scan _ _ (Shift.sim 0)); [exact Hz|sims|].
    intros s s' [x c] [x' c'] Hs [Hx Hc]. cbn [fst snd] in *. subst c'. sims.
Qed.

(** ** correlation.rs: the two series are moved by different constants *)
Lemma zip_windows_sh g h l l' k k' w : ss g l l' -> ss h k k' ->
  rrel (Forall2 (prel (wrel w (Shift.sim g)) (wrel w (Shift.sim h)))) (zip_windows w l k) (zip_windows w l' k').
Proof. intros. unfold zip_windows. sims. Qed.

(** A window with a NaN or an infinity has no correlation. *)
Definition fin (x : xr) : bool := match x with Fin _ => true | _ => false end.
Definition lost (s s2 : xr) : Prop := fin s = false /\ (s2 = NaN \/ s2 = Inf false).
Lemma lost_end n s s2 : (0 < n)%nat -> lost s s2 -> fsub (fmul (fofnat n) s2) (fmul s s) = NaN.
Proof.
  intros H [S T]. rewrite x_nat. pose proof (INR_pos n H).
  destruct T as [->| ->]; [easy|]. destruct s as [r|b|]; try easy.
  - cbn. rewrite (proj2 (Req_false (INR n) 0)) by lra. rewrite (proj2 (Rltb_false (INR n) 0)) by lra. now destruct b.
  - cbn. now destruct (Req (INR n) 0).
Qed.
Lemma lost_step s s2 x : lost s s2 -> lost (fadd s x) (fadd s2 (fmul x x)).
Proof.
  intros [S T]. split; [destruct s as [|[]|], x as [|[]|]; easy|].
  destruct T as [->| ->]; [now left|]. destruct x as [|[]|]; cbn; tauto.
Qed.
Lemma lost_new r r2 x : fin x = false -> lost (fadd (Fin r) x) (fadd (Fin r2) (fmul x x)).
Proof. intros S. split; [now destruct x|]. destruct x as [|[]|]; cbn; try easy; tauto. Qed.
Lemma pcc_lost_from a b sxy sx sy sx2 sy2 : lost sx sx2 ->
  let '(_, s, _, s2, _) := fold_left (fun '(sxy, sx, sy, sx2, sy2) '(x, y) =>
     (fadd sxy (fmul x y), fadd sx x, fadd sy y, fadd sx2 (fmul x x), fadd sy2 (fmul y y))) (combine a b) (sxy, sx, sy, sx2, sy2) in lost s s2.
Proof.
  revert b sxy sx sy sx2 sy2. induction a as [|x a IH]; intros [|y b]; intros; cbn [combine fold_left]; try easy.
  apply IH. now apply lost_step.
Qed.
Lemma pcc_lost_x a b : length a = length b -> forallb fin a = false ->
  forall sxy r sy r2 sy2, let '(_, s, _, s2, _) := fold_left (fun '(sxy, sx, sy, sx2, sy2) '(x, y) =>
     (fadd sxy (fmul x y), fadd sx x, fadd sy y, fadd sx2 (fmul x x), fadd sy2 (fmul y y))) (combine a b) (sxy, Fin r, sy, Fin r2, sy2) in lost s s2.
Proof.
  revert b. induction a as [|x a IH]; intros [|y b] L E; try easy. intros. cbn [combine fold_left]. cbn [forallb] in E.
  destruct x as [q| |]; [|apply pcc_lost_from, lost_new; reflexivity..].
  rewrite x_mul, !x_add. apply IH; [now injection L|exact E].
Qed.
Lemma pcc_sums_swap a b sxy sx sy sx2 sy2 :
  fold_left (fun '(sxy, sx, sy, sx2, sy2) '(x, y) =>
     (fadd sxy (fmul x y), fadd sx x, fadd sy y, fadd sx2 (fmul x x), fadd sy2 (fmul y y))) (combine b a) (sxy, sy, sx, sy2, sx2) =
  (let '(p, q, r, s, t) := fold_left (fun '(sxy, sx, sy, sx2, sy2) '(x, y) =>
     (fadd sxy (fmul x y), fadd sx x, fadd sy y, fadd sx2 (fmul x x), fadd sy2 (fmul y y))) (combine a b) (sxy, sx, sy, sx2, sy2) in (p, r, q, t, s)).
Proof.
  revert b sxy sx sy sx2 sy2. induction a as [|x a IH]; intros [|y b]; intros; cbn [combine fold_left]; try easy.
  rewrite <- IH. replace (@fmul xr XR y x) with (@fmul xr XR x y); [easy|].
  destruct x as [|[]|], y as [|[]|]; cbn; try easy. f_equal. ring.
Qed.
Lemma pcc_win_lost w a b : (0 < w)%nat -> length a = length b -> forallb fin a = false \/ forallb fin b = false -> pcc_win w (a, b) = NaN.
Proof.
  intros W L [E|E]; unfold pcc_win; cbn [fst snd]; unfold pcc_sums.
  - pose proof (pcc_lost_x a b L E (flit 0 1) (IZR 0 / IZR 1) (flit 0 1) (IZR 0 / IZR 1) (flit 0 1)) as H. revert H. change (Fin (IZR 0 / IZR 1)) with (@flit xr XR 0 1).
    match goal with |- context [fold_left ?f ?x ?z] => generalize (fold_left f x z) end. intros [[[[p q] r] s] t] H.
    rewrite (lost_end w q s W H). change (@fsqrt xr XR NaN) with NaN. now rewrite x_mul_nan_l, x_div_nan_r.
  - rewrite pcc_sums_swap. pose proof (pcc_lost_x b a (eq_sym L) E (flit 0 1) (IZR 0 / IZR 1) (flit 0 1) (IZR 0 / IZR 1) (flit 0 1)) as H. revert H. change (Fin (IZR 0 / IZR 1)) with (@flit xr XR 0 1).
    match goal with |- context [fold_left ?f ?x ?z] => generalize (fold_left f x z) end. intros [[[[p q] r] s] t] H.
    rewrite (lost_end w q s W H). change (@fsqrt xr XR NaN) with NaN. now rewrite x_mul_nan_r, x_div_nan_r.
Qed.
Lemma all_fin l : forallb fin l = true -> exists rs, l = map Fin rs.
Proof.
  induction l as [|x l IH]; [now exists []|]. cbn. destruct x as [r| |]; try easy. intros H. destruct (IH H) as [rs ->]. now exists (r :: rs).
Qed.
Lemma shift_fin g l l' : ss g l l' -> forallb fin l' = forallb fin l.
Proof. induction 1 as [|x y l l' H _ IH]; cbn; [easy|]. rewrite IH, H. now destruct x. Qed.
Lemma shift_reals g rs l' : ss g (map Fin rs) l' -> l' = map Fin (map (fun r => (1 * r + g)%R) rs).
Proof. intros H. apply f2_shifted in H. subst. unfold shifted. rewrite !map_map. apply map_ext. intros r. cbn. f_equal. ring. Qed.
Lemma pcc_win_sh g h w x x' y y' : (0 < w)%nat -> length x = w -> length y = w -> ss g x x' -> ss h y y' ->
  pcc_win w (x', y') = pcc_win w (x, y).
Proof.
  intros W Lx Ly Hx Hy. pose proof (f2_length _ _ _ Hx). pose proof (f2_length _ _ _ Hy).
  destruct (forallb fin x && forallb fin y) eqn:E.
  - apply andb_prop in E as [Ex Ey]. destruct (all_fin _ Ex) as [a ->], (all_fin _ Ey) as [b ->].
    rewrite map_length in *. rewrite (shift_reals _ _ _ Hx), (shift_reals _ _ _ Hy).
    assert (A : a <> []) by (intros ->; cbn in *; lia). assert (B : b <> []) by (intros ->; cbn in *; lia).
    rewrite !x_pcc_win by (rewrite ?map_length; easy).
    rewrite !var_affine by easy. rewrite pearson_affine by (rewrite ?map_length; first [lra|congruence]).
    rewrite (pearson_sym a (map _ b)), pearson_affine, (pearson_sym b a) by (first [lra|congruence]).
    replace (1 ^ 2 * var a * (1 ^ 2 * var b))%R with (var a * var b)%R by ring. easy.
  - apply Bool.andb_false_iff in E. rewrite !pcc_win_lost; try easy; try congruence.
    now rewrite (shift_fin _ _ _ Hx), (shift_fin _ _ _ Hy).
Qed.
Lemma pcc_sh g h l l' k k' w : ss g l l' -> ss h k k' -> rrel (ss 0) (pcc l k w) (pcc l' k' w).
Proof.
  intros. unfold pcc. eapply r_usub. intros _. eapply r_bind; [eapply zip_windows_sh; eassumption|intros].
  apply r_ok. apply f2_app; [|sims]. eapply f2_map; [eassumption|]. intros [x y] [x' y'] [(? & ? & ?) (? & ? & ?)]. cbn [fst snd] in *.
  apply s_eq_iff. eapply pcc_win_sh; eassumption.
Qed.
Lemma rsq_sh g h l l' k k' w : ss g l l' -> ss h k k' -> rrel (ss 0) (rsq l k w) (rsq l' k' w).
Proof. intros. unfold rsq. eapply r_bind; [eapply pcc_sh; eassumption|intros]. sims. Qed.
Lemma srcc_sh g h srt l l' k k' w : (forall d a a', ss d a a' -> srt a' = srt a) -> ss g l l' -> ss h k k' ->
  rrel (ss 0) (srcc srt l k w) (srcc srt l' k' w).
Proof.
  intros Hs. intros. unfold srcc. eapply r_usub. intros _. eapply r_bind; [eapply zip_windows_sh; eassumption|intros].
  eapply (r_bind (ss 0)); [|intros; sims]. eapply r_rmap; [eassumption|]. intros [x y] [x' y'] [(Hx & _ & _) (Hy & _ & _)]. cbn [fst snd] in *.
  unfold srcc_win. cbn [fst snd]. rewrite (rank_sh g srt x x'), (rank_sh h srt y y') by eauto.
  do 2 (eapply r_bind; [apply r_refl|intros ? ? <-]). eapply r_bind; [apply r_refl|intros [[] ?] ? <-]. sims.
Qed.
Lemma krcc_sh g h l l' k k' w : ss g l l' -> ss h k k' -> rrel (ss 0) (krcc l k w) (krcc l' k' w).
Proof.
  intros. unfold krcc. eapply r_usub. intros _. eapply r_bind; [eapply zip_windows_sh; eassumption|intros].
  eapply (r_bind (ss 0)); [|intros; sims]. eapply r_rmap; [eassumption|]. intros [x y] [x' y'] [(Hx & _ & _) (Hy & _ & _)]. cbn [fst snd] in *.
  assert (E : krcc_counts w x' y' = krcc_counts w x y).
  { unfold krcc_counts. generalize (#0, #0, #0, #0 : xr)%F. induction (krcc_pairs w) as [|[i j] ps IH]; intros z; cbn [fold_left]; [easy|].
    rewrite IH. f_equal. destruct z as [[[? ?] ?] ?]. cbv zeta.
    assert (X : forall i, Shift.sim g (at_ x i) (at_ x' i)) by (intros; sims). assert (Y : forall i, Shift.sim h (at_ y i) (at_ y' i)) by (intros; sims).
    rewrite (s_eq (at_ x i - at_ x j)%F (at_ x' i - at_ x' j)%F) by (eapply s_sub; [apply X|apply X|ring]).
    rewrite (s_eq (at_ y i - at_ y j)%F (at_ y' i - at_ y' j)%F) by (eapply s_sub; [apply Y|apply Y|ring]).
    unfold fneb. rewrite (s_eqb g _ _ _ _ (X i) (X j)), (s_eqb h _ _ _ _ (Y i) (Y j)). reflexivity. }
  unfold krcc_win. cbn [fst snd]. rewrite E. destruct (krcc_counts w x y) as [[[? ?] ?] ?]. sims.
Qed.
Lemma hoeffd_sh g h srt l l' k k' w : (forall d a a', ss d a a' -> srt a' = srt a) -> ss g l l' -> ss h k k' ->
  rrel (ss 0) (hoeffd srt l k w) (hoeffd srt l' k' w).
Proof.
  intros Hs. intros. unfold hoeffd. eapply r_usub. intros _. eapply r_bind; [eapply zip_windows_sh; eassumption|intros].
  eapply (r_bind (ss 0)); [|intros; sims]. eapply r_rmap; [eassumption|]. intros [x y] [x' y'] [(Hx & _ & _) (Hy & _ & _)]. cbn [fst snd] in *.
  unfold hoeffd_win. cbn [fst snd]. rewrite (rank_sh g srt x x'), (rank_sh h srt y y') by eauto.
  do 2 (eapply r_bind; [apply r_refl|intros ? ? <-]). destruct (hoeffd_sums _ _ _) as [[? ?] ?]. sims.
Qed.
Lemma dist_sh g l l' i j : ss g l l' -> dist l' i j = dist l i j.
Proof. intros. unfold dist. f_equal. apply s_eq. sims. Qed.
Lemma centred_matrix_sh g l l' : ss g l l' -> centred_matrix l' = centred_matrix l.
Proof.
  intros H. unfold centred_matrix. cbv zeta. rewrite (f2_length _ _ _ H).
  assert (D : forall i j, dist l' i j = dist l i j) by (intros; eapply dist_sh; eassumption).
  assert (Rm : forall i, row_mean l' i = row_mean l i).
  { intros. unfold row_mean. rewrite (f2_length _ _ _ H). do 2 f_equal. apply map_ext. intros. apply D. }
  assert (Mm : matrix_mean l' = matrix_mean l).
  { unfold matrix_mean. rewrite (f2_length _ _ _ H). f_equal. f_equal.
    - apply s_eq. eapply (f2_fold eq (Shift.sim 0)); [apply f2_refl|sims|]. intros s s' [i j] ? Hss <-. rewrite D. sims.
    - apply s_eq. eapply (f2_fold eq (Shift.sim 0)); [apply f2_refl|sims|]. intros s s' i ? Hss <-. rewrite D. sims. }
  rewrite Mm, (map_ext _ _ Rm). apply flat_map_ext. intros i. apply map_ext. intros j. unfold centred. now rewrite D.
Qed.
Lemma dcor_sh g h l l' k k' w : ss g l l' -> ss h k k' -> rrel (ss 0) (dcor l k w) (dcor l' k' w).
Proof.
  intros. unfold dcor. eapply r_usub. intros _. eapply r_bind; [eapply zip_windows_sh; eassumption|intros].
  apply r_ok. apply f2_app; [|sims]. eapply f2_map; [eassumption|]. intros [x y] [x' y'] [(Hx & _ & _) (Hy & _ & _)]. cbn [fst snd] in *.
  apply s_eq_iff. unfold dcor_win. cbn [fst snd]. now rewrite (centred_matrix_sh g x x'), (centred_matrix_sh h y y').
Qed.
Definition within (x : xr) : Prop := exists r, x = Fin r /\ (- IZR (2 ^ 1024 - 2 ^ 971) <= r <= IZR (2 ^ 1024 - 2 ^ 971))%R.
Lemma seed_min x : within x -> fmin fmaxval x = x.
Proof.
  intros (r & -> & H). change (@fmaxval xr XR) with (Fin (IZR (2 ^ 1024 - 2 ^ 971))). revert H. generalize (IZR (2 ^ 1024 - 2 ^ 971)). intros M H.
  rewrite x_min. f_equal. apply Rmin_right. lra.
Qed.
Lemma seed_max x : within x -> fmax fminval x = x.
Proof.
  intros (r & -> & H). unfold fminval. change (@fmaxval xr XR) with (Fin (IZR (2 ^ 1024 - 2 ^ 971))). revert H. generalize (IZR (2 ^ 1024 - 2 ^ 971)). intros M H.
  rewrite x_neg, x_max. f_equal. apply Rmax_right. lra.
Qed.
Lemma bin_sh g l l' n : Forall within l -> Forall within l' -> ss g l l' -> bin l' n = bin l n.
Proof.
  intros W W' H. unfold bin.
  match goal with |- context [fold_left ?g l' _] => set (f := g) end.
  assert (E : l <> [] -> P2 g g (fold_left f l (fmaxval, fminval)) (fold_left f l' (fmaxval, fminval))).
  { destruct H as [|x x' l l' Hx Hl]; [easy|]. intros _. inversion_clear W as [|? ? W1 _]. inversion_clear W' as [|? ? W1' _].
    cbn [fold_left]. unfold f at 2 4. rewrite !seed_min, !seed_max by assumption.
    eapply f2_fold; [exact Hl|split; exact Hx|]. intros. brk. unfold f. sims. }
  destruct l as [|x l]; [inversion H; subst; now destruct (fold_left f [] _)|]. specialize (E ltac:(easy)).
  revert E. generalize (fold_left f (x :: l) (fmaxval, fminval)) (fold_left f l' (fmaxval, fminval)). intros [mn mx] [mn' mx'] [Hn Hm]. cbn [fst snd] in *.
  cbv zeta. clear W W'. induction H as [|y y' k k' Hy Hk IH]; cbn [map]; [easy|]. f_equal; [|exact IH].
  do 3 f_equal. apply s_eq. sims.
Qed.
Lemma mic_sh g h ord l l' k k' w : Forall within l -> Forall within l' -> Forall within k -> Forall within k' ->
  ss g l l' -> ss h k k' -> mic ord l' k' w = mic ord l k w.
Proof.
  intros Wl Wl' Wk Wk' Hl Hk. unfold mic. destruct (usub w 1); cbn [bind]; [|easy]. unfold zip_windows, rwindows.
  destruct (w =? 0)%nat; cbn [bind]; [easy|]. do 2 f_equal.
  apply (ScaleRel.forall_windows _ w) in Wl, Wl', Wk, Wk'. apply (f2_windows _ w) in Hl, Hk.
  revert Wl Wl' Wk Wk' Hl Hk. generalize (windows w l) (windows w l') (windows w k) (windows w k'). clear. intros a a' b b' Wa Wa' Wb Wb' Ha. revert b b' Wb Wb'.
  induction Ha as [|x x' a a' Hx Ha IH]; intros b b' Wb Wb' Hb; [easy|]. destruct Hb as [|y y' b b' Hy Hb]; [easy|].
  apply Forall_cons_iff in Wa, Wa', Wb, Wb'. cbn [combine map]. f_equal; [|apply IH; tauto].
  unfold mic_win. cbn [fst snd]. match goal with |- fold_left ?f _ _ = fold_left ?g _ _ => assert (E : forall s p, f s p = g s p) end.
  { intros s [i j]. now rewrite (bin_sh g x x'), (bin_sh h y y') by tauto. }
  match goal with |- fold_left _ ?gl ?s = _ => generalize s; induction gl as [|p q IHl]; intros z; cbn [fold_left]; [easy|] end.
  now rewrite E, IHl.
Qed.
