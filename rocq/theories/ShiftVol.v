(** * ShiftVol: volatility.rs and volume.rs run on prices and on the same prices plus a constant. *)

From Coq Require Import Reals Lra Lia.
From Verif Require Import Base BaseFacts Num XReal XRFacts Scale Shift.
From Verif Require Import Distribution Regression Smooth Correlation Volatility Volume Trend Momentum.
From Verif Require Import RSpec ShiftRel ShiftStat.
Local Unset Implicit Arguments.

Local Notation ss g := (Forall2 (Shift.sim g)).
Local Notation P2 a b := (prel (Shift.sim a) (Shift.sim b)).

(** ** volatility.rs *)

Lemma s_max_of g l l' : ss g l l' -> Shift.sim g (max_of l) (max_of l').
Proof. intros. unfold max_of. sims. Qed.
Lemma s_min_of g l l' : ss g l l' -> Shift.sim g (min_of l) (min_of l').
Proof. intros. unfold min_of. sims. Qed.
Lemma hl_range_sh g h h' l l' : ss g h h' -> ss g l l' -> ss 0 (hl_range h l) (hl_range h' l').
Proof. intros. unfold hl_range. sims. Qed.
Lemma tr_bar_sh g h h' l l' c c' : Shift.sim g h h' -> Shift.sim g l l' -> Shift.sim g c c' -> Shift.sim 0 (tr_bar h l c) (tr_bar h' l' c').
Proof. intros. unfold tr_bar. sims. Qed.
Ltac hook3 ::= match goal with
  | |- Shift.sim _ (max_of _) _ => eapply s_max_of
  | |- Shift.sim _ (min_of _) _ => eapply s_min_of
  | |- Shift.sim 0 (tr_bar _ _ _) _ => eapply tr_bar_sh
  | |- Forall2 _ (hl_range _ _) _ => eapply hl_range_sh
  | |- rrel _ (std_dev_raw _ _) _ => eapply std_dev_raw_sh
  | |- rrel _ (std_dev _ _) _ => eapply std_dev_sh
  end.
Lemma mass_sh g h h' l l' s w : ss g h h' -> ss g l l' -> rrel (ss 0) (mass h l s w) (mass h' l' s w).
Proof. intros H L. unfold mass. rewrite (f2_same0 _ _ (hl_range_sh g h h' l l' H L)). sims. Qed.
Lemma gri_sh g h h' l l' w : ss g h h' -> ss g l l' -> rrel (ss 0) (gri h l w) (gri h' l' w).
Proof. intros. unfold gri. sims. Qed.
Lemma true_range_sh g h h' l l' c c' : ss g h h' -> ss g l l' -> ss g c c' -> rrel (ss 0) (true_range h l c) (true_range h' l' c').
Proof. intros. unfold true_range. sims. Qed.
Lemma tr_sh g h h' l l' c c' : ss g h h' -> ss g l l' -> ss g c c' -> rrel (ss 0) (tr h l c) (tr h' l' c').
Proof. intros. unfold tr. call (true_range_sh g). sims. Qed.
Lemma atr_sh g h h' l l' c c' w : ss g h h' -> ss g l l' -> ss g c c' -> rrel (ss 0) (atr h l c w) (atr h' l' c' w).
Proof. intros. unfold atr. call (true_range_sh g). sims. Qed.
Ltac hook4 ::= match goal with
  | |- rrel _ (true_range _ _ _) _ => eapply true_range_sh
  | |- rrel _ (atr _ _ _ _) _ => eapply atr_sh
  end.
Lemma keltner_sh g h h' l l' c c' w : ss g h h' -> ss g l l' -> ss g c c' ->
  rrel (Forall2 (prel (P2 g g) (Shift.sim g))) (keltner h l c w) (keltner h' l' c' w).
Proof. intros. unfold keltner. call (ewma_sh g). call (atr_sh g). sims. Qed.
Lemma hlc3_sh g h h' l l' c c' : ss g h h' -> ss g l l' -> ss g c c' -> ss g (hlc3 h l c) (hlc3 h' l' c').
Proof. intros. unfold hlc3. sims. Qed.
Lemma typical_sh g h h' l l' c c' w : ss g h h' -> ss g l l' -> ss g c c' -> rrel (ss g) (typical h l c w) (typical h' l' c' w).
Proof. intros. unfold typical. apply sma_sh. now apply hlc3_sh. Qed.
Lemma vstd_dev_sh g l l' w d : ss g l l' -> rrel (ss 0) (vstd_dev l w d) (vstd_dev l' w d).
Proof. intros. unfold vstd_dev. sims. Qed.
Lemma bbands_sh g l l' w d m : affine_mode (unwrap_or m EWMA) = true -> ss g l l' ->
  rrel (Forall2 (prel (P2 g g) (Shift.sim g))) (bbands l w d m) (bbands l' w d m).
Proof. intros. unfold bbands. eapply r_bind; [apply ma_sh; eassumption|intros]. call (vstd_dev_sh g). sims. Qed.
Lemma donchian_sh g h h' l l' w : ss g h h' -> ss g l l' ->
  rrel (Forall2 (prel (P2 g g) (Shift.sim g))) (donchian h l w) (donchian h' l' w).
Proof. intros. unfold donchian. sims. unfold donchian_win. sims. Qed.
Lemma starc_sh g h h' l l' c c' w m k : ss g h h' -> ss g l l' -> ss g c c' ->
  rrel (Forall2 (P2 g g)) (starc h l c w m k) (starc h' l' c' w m k).
Proof. intros. unfold starc. call (atr_sh g). call (sma_sh g). sims. Qed.
Lemma cvi_sh g h h' l l' w r : ss g h h' -> ss g l l' -> rrel (ss 0) (cvi h l w r) (cvi h' l' w r).
Proof. intros H L. unfold cvi. rewrite (f2_same0 _ _ (hl_range_sh g h h' l l' H L)). sims. Qed.
Lemma rel_vol_pairs_sh g l l' w : ss g l l' -> rrel (Forall2 (P2 0 0)) (rel_vol_pairs l w) (rel_vol_pairs l' w).
Proof. intros. unfold rel_vol_pairs. sims. Qed.
Lemma relative_vol_sh g l l' w s : ss g l l' -> rrel (ss 0) (relative_vol l w s) (relative_vol l' w s).
Proof. intros. unfold relative_vol. eapply r_bind; [eapply rel_vol_pairs_sh; eassumption|intros]. sims. Qed.
Lemma inertia_sh g l l' w s : ss g l l' -> rrel (ss 0) (inertia l w s) (inertia l' w s).
Proof. intros. unfold inertia. call (relative_vol_sh g). sims. Qed.
Lemma chop_sh g h h' l l' c c' w : ss g h h' -> ss g l l' -> ss g c c' -> rrel (ss 0) (chop h l c w) (chop h' l' c' w).
Proof. intros. unfold chop. do 2 (eapply r_bind; [eapply r_slice_from; eassumption|intros]). call (true_range_sh g). sims. Qed.
Lemma abs_diffs_sh g c c' : ss g c c' -> ss 0 (abs_diffs c) (abs_diffs c').
Proof. intros. unfold abs_diffs. sims. Qed.
Lemma vhf_sh g h h' l l' c c' w : ss g h h' -> ss g l l' -> ss g c c' -> rrel (ss 0) (vhf h l c w) (vhf h' l' c' w).
Proof. intros H L C. unfold vhf. rewrite (f2_same0 _ _ (abs_diffs_sh g c c' C)). sims. Qed.
Lemma heikin_ashi_sh g o o' h h' l l' c c' : ss g o o' -> ss g h h' -> ss g l l' -> ss g c c' ->
  rrel (Forall2 (prel (prel (P2 g g) (Shift.sim g)) (Shift.sim g))) (heikin_ashi o h l c) (heikin_ashi o' h' l' c').
Proof. intros. unfold heikin_ashi. sims. scn (P2 g g). unfold ha_step. sims. Qed.
Lemma wcp_sh g h h' l l' c c' : ss g h h' -> ss g l l' -> ss g c c' -> ss g (wcp h l c) (wcp h' l' c').
Proof. intros. unfold wcp. sims. Qed.

(** ** volume.rs: the volumes stay as they are *)

Lemma tail4_sh g h h' l l' c c' v : ss g h h' -> ss g l l' -> ss g c c' ->
  rrel (Forall2 (prel (prel (P2 g g) (Shift.sim g)) eq)) (tail4 h l c v) (tail4 h' l' c' v).
Proof.
  intros. unfold tail4. do 3 (eapply r_bind; [eapply r_slice_from; eassumption|intros]). eapply r_bind; [apply r_refl|intros ? ? <-].
  apply r_ok. unfold zip4. do 3 (apply f2_combine; [|first [eassumption|apply f2_refl]]). assumption.
Qed.
Ltac hook5 ::= match goal with
  | |- rrel _ (tail4 _ _ _ _) _ => eapply tail4_sh
  end.
Lemma vforce_sh g h h' l l' c c' v : ss g h h' -> ss g l l' -> ss g c c' -> rrel (ss 0) (vforce h l c v) (vforce h' l' c' v).
Proof.
  intros. unfold vforce. eapply r_bind; [eapply tail4_sh; eassumption|intros]. do 3 (eapply r_bind; [eapply r_idx; eassumption|intros]).
  apply r_ok. eapply (f2_scan _ _ (prel (prel (prel (prel (P2 g g) (Shift.sim g)) (Shift.sim 0)) (Shift.sim 0)) (Shift.sim 0))); [eassumption|sims|].
  intros. brk. unfold vforce_step. sims.
Qed.
Lemma vforce_alt_sh g h h' l l' c c' v : ss g h h' -> ss g l l' -> ss g c c' -> rrel (ss 0) (vforce_alt h l c v) (vforce_alt h' l' c' v).
Proof.
  intros. unfold vforce_alt. eapply r_bind; [eapply tail4_sh; eassumption|intros]. do 3 (eapply r_bind; [eapply r_idx; eassumption|intros]).
  apply r_ok. eapply (f2_scan _ _ (prel (P2 g g) (Shift.sim g))); [eassumption|sims|].
  intros. brk. unfold vforce_alt_step. sims.
Qed.
Lemma kvo_sh g h h' l l' c c' v s w a : ss g h h' -> ss g l l' -> ss g c c' -> rrel (ss 0) (kvo h l c v s w a) (kvo h' l' c' v s w a).
Proof.
  intros. unfold kvo. eapply (r_bind (ss 0)); [|intros; sims].
  destruct (unwrap_or a true); [eapply vforce_alt_sh|eapply vforce_sh]; eassumption.
Qed.
Lemma twiggs_sh g h h' l l' c c' v w : ss g h h' -> ss g l l' -> ss g c c' -> rrel (ss 0) (twiggs h l c v w) (twiggs h' l' c' v w).
Proof.
  intros. unfold twiggs. eapply r_bind; [eapply tail4_sh; eassumption|intros]. eapply r_bind; [eapply r_idx; eassumption|intros c0 c0' ?].
  match goal with |- rrel _ (bind (wilder_sum ?x _) _) (bind (wilder_sum ?y _) _) => assert (E : y = x) end.
  { apply f2_same0. eapply (f2_scan _ _ (Shift.sim g)); [eassumption|sims|]. intros. brk. unfold twiggs_step. sims. }
  rewrite E. do 3 (eapply r_bind; [apply r_refl|intros ? ? <-]). sims.
Qed.
Lemma ad_sh g h h' l l' c c' v a : ss g h h' -> ss g l l' -> ss g c c' -> rrel (ss 0) (ad h l c v a) (ad h' l' c' v a).
Proof.
  intros. unfold ad. destruct (negb (unwrap_or a false)).
  - apply r_ok. eapply (f2_scan (prel (prel (P2 g g) (Shift.sim g)) eq) _ (Shift.sim 0)).
    + unfold zip4. do 3 (apply f2_combine; [|first [eassumption|apply f2_refl]]). assumption.
    + sims.
    + intros. brk. unfold ad_step. sims.
  - eapply r_bind; [eapply tail4_sh; eassumption|intros]. eapply r_bind; [eapply r_idx; eassumption|intros].
    apply r_ok. constructor; [apply s_nan|]. eapply (f2_scan _ _ (P2 g 0)); [eassumption|sims|]. intros. brk. unfold ad_alt_step. sims.
Qed.
Lemma steps3_sh g c c' v : ss g c c' -> rrel (Forall2 (prel (P2 g g) eq)) (steps3 c v) (steps3 c' v).
Proof.
  intros. unfold steps3. lens. eapply r_usub. intros _. eapply r_bind; [eapply r_slice_to; eassumption|intros ? ? [? _]].
  eapply r_bind; [eapply r_slice_from; eassumption|intros]. eapply r_bind; [apply r_refl|intros ? ? <-].
  apply r_ok. unfold zip3. do 2 (apply f2_combine; [|first [eassumption|apply f2_refl]]). assumption.
Qed.
Lemma elder_force_sh g c c' v w : ss g c c' -> rrel (ss 0) (elder_force c v w) (elder_force c' v w).
Proof.
  intros. unfold elder_force. eapply r_bind; [eapply steps3_sh; eassumption|intros]. sims.
Qed.
Lemma cmf_sh g h h' l l' c c' v w : ss g h h' -> ss g l l' -> ss g c c' -> rrel (ss 0) (cmf h l c v w) (cmf h' l' c' v w).
Proof.
  intros. unfold cmf.
  match goal with |- context [bind (rwindows _ ?x) _] => match goal with |- context [map cmf_bar (zip4 h' l' c' v)] =>
    assert (E : map cmf_bar (zip4 h' l' c' v) = map cmf_bar (zip4 h l c v)) end end.
  { apply f2_same0. eapply (f2_map (prel (prel (P2 g g) (Shift.sim g)) eq)).
    - unfold zip4. do 3 (apply f2_combine; [|first [eassumption|apply f2_refl]]). assumption.
    - intros. brk. unfold cmf_bar. sims. }
  rewrite E. sims.
Qed.
Lemma tvi_sh g c c' v m : ss g c c' -> rrel (ss 0) (tvi c v m) (tvi c' v m).
Proof.
  intros. unfold tvi. eapply r_bind; [eapply steps3_sh; eassumption|intros]. apply r_ok. constructor; [apply s_nan|].
  eapply (f2_scan _ _ (prel eq (Shift.sim 0))); [eassumption|sims|].
  intros [d s] [d' s'] [[p q] x] [[p' q'] x'] [Hd Hs] [[Hp Hq] Hx]. cbn [fst snd] in *. subst d' x'. apply s_eq in Hs. subst s'.
  unfold tvi_step. rewrite (s_eq (q - p)%F (q' - p')%F) by sims. rewrite (s_eq (p - q)%F (p' - q')%F) by sims. sims.
Qed.
Lemma ease_sh g h h' l l' v w : ss g h h' -> ss g l l' -> rrel (ss 0) (ease h l v w) (ease h' l' v w).
Proof.
  intros. unfold ease. lens. eapply (r_bind (ss 0)); [|intros; sims].
  eapply r_rmap; [apply f2_refl|]. intros i ? <-. unfold ease_bar. do 4 (eapply r_bind; [eapply r_idx; eassumption|intros]).
  eapply r_bind; [apply r_refl|intros ? ? <-]. sims.
Qed.
Lemma obv_sh g c c' v : ss g c c' -> rrel (ss 0) (obv c v) (obv c' v).
Proof.
  intros. unfold obv. eapply (r_bind (ss 0)); [|intros; sims].
  eapply (r_scan (prel eq (ss g)) _ (Shift.sim 0)); [apply f2_enumerate, f2_windows; assumption|sims|].
  intros s s' [i x] [i' x'] Hs [Hi Hx]. cbn [fst snd] in *. subst i'. unfold obv_step. eapply r_bind; [apply r_refl|intros ? ? <-]. sims.
Qed.
Lemma bw_mfi_sh g h h' l l' v : ss g h h' -> ss g l l' -> ss 0 (bw_mfi h l v) (bw_mfi h' l' v).
Proof.
  intros. unfold bw_mfi. eapply (f2_map (prel (P2 g g) eq)).
  - unfold zip3. do 2 (apply f2_combine; [|first [eassumption|apply f2_refl]]). assumption.
  - intros. brk. sims.
Qed.

(** Weighted averages: the weights are finite volumes; where they sum to nothing the quotient is
    not a number or infinite, in both runs. *)
Lemma s_div_w g k a a' : Shift.sim (g * k) a a' -> Shift.sim g (fdiv a (Fin k)) (fdiv a' (Fin k)).
Proof.
  intros H. destruct (Req_dec k 0) as [->|N].
  - rewrite Rmult_0_r in H. apply s_eq in H. subst a'. destruct a as [r|b|]; cbn; rewrite ?(proj2 (Req_true 0 0)) by reflexivity; try easy.
    destruct (Req r 0); easy.
  - eapply s_divk; [exact H|reflexivity|exact N|]. field. exact N.
Qed.
Definition vol (x y : xr) : Prop := y = x /\ fin x = true.
Lemma vol_reals vs : Forall2 vol (map Fin vs) (map Fin vs).
Proof. induction vs; cbn; constructor; easy. Qed.
Lemma vwap_sh g h h' l l' c c' vs r : ss g h h' -> ss g l l' -> ss g c c' ->
  rrel (ss g) (vwap h l c (map Fin vs) r) (vwap h' l' c' (map Fin vs) r).
Proof.
  intros. unfold vwap. cbv zeta. lens.
  set (U := fun s s' : xr * xr * list nat => snd s' = snd s /\ exists k, snd (fst s) = Fin k /\ snd (fst s') = Fin k /\ Shift.sim (g * k) (fst (fst s)) (fst (fst s'))).
  eapply (r_scan (prel eq (prel (prel (P2 g g) (Shift.sim g)) vol)) _ U).
  - apply f2_enumerate. unfold zip4. do 3 (apply f2_combine; [|first [eassumption|apply vol_reals]]). assumption.
  - split; [reflexivity|]. cbn [fst snd]. eexists. rewrite x_lit. split; [reflexivity|split; [reflexivity|]]. eapply s_conv; [apply s_same|ring].
  - intros [[p q] rs] [[p' q'] rs'] [i [[[x y] z] u]] [i' [[[x' y'] z'] u']] (Er & k & Eq & Eq' & Hp) [Hi [[[Hx Hy] Hz] [Eu Fu]]]. cbn [fst snd] in *. subst rs' i' u' q q'.
    destruct u as [u| |]; try easy. unfold vwap_step. eapply r_bind; [apply r_refl|intros r0 ? <-].
    assert (Ht : Shift.sim g ((x + y + z) / #3)%F ((x' + y' + z') / #3)%F) by sims.
    destruct (i =? r0)%nat.
    + apply r_ok. rewrite x_lit, x_add. split; cbn [fst snd].
      * split; [easy|]. exists (0 + u)%R. cbn [fst snd]. do 2 (split; [reflexivity|]). eapply s_add; [apply s_same|eapply s_mulk; [exact Ht|reflexivity|reflexivity]|ring].
      * apply s_div_w. eapply s_add; [apply s_same|eapply s_mulk; [exact Ht|reflexivity|reflexivity]|ring].
    + apply r_ok. rewrite x_add. split; cbn [fst snd].
      * split; [easy|]. exists (k + u)%R. cbn [fst snd]. do 2 (split; [reflexivity|]). eapply s_add; [exact Hp|eapply s_mulk; [exact Ht|reflexivity|reflexivity]|ring].
      * apply s_div_w. eapply s_add; [exact Hp|eapply s_mulk; [exact Ht|reflexivity|reflexivity]|ring].
Qed.
Lemma vwma_fold_sh g l l' ks a a' q : ss g l l' -> length l = length ks -> Shift.sim (g * q) a a' ->
  Shift.sim (g * (q + Rsum ks)) (fold_left (fun acc '(x, v) => fadd acc (fmul x v)) (combine l (map Fin ks)) a)
    (fold_left (fun acc '(x, v) => fadd acc (fmul x v)) (combine l' (map Fin ks)) a').
Proof.
  intros H. revert ks a a' q. induction H as [|x y l l' H _ IH]; intros [|k ks] a a' q L S; try easy; cbn [map combine fold_left].
  - rewrite Rsum_nil. eapply s_conv; [exact S|ring].
  - rewrite Rsum_cons. eapply s_conv; [apply (IH ks _ _ (q + k)%R); [now injection L|]|ring].
    eapply s_add; [exact S|eapply s_mulk; [exact H|reflexivity|reflexivity]|ring].
Qed.
Lemma vwma_sh g l l' vs w : ss g l l' -> rrel (ss g) (vwma l (map Fin vs) w) (vwma l' (map Fin vs) w).
Proof.
  intros. unfold vwma. eapply r_usub. intros _. eapply r_bind; [eapply r_rwindows; eassumption|intros].
  eapply r_bind; [apply (r_rwindows vol), vol_reals|intros]. apply r_ok. apply f2_app; [|sims].
  eapply f2_map; [apply f2_combine; eassumption|]. intros [x u] [x' u'] [(Hx & Lx & W) (Hu & Lu & _)]. cbn [fst snd] in *.
  assert (E : exists ks, u = map Fin ks /\ u' = map Fin ks).
  { clear Lu. induction Hu as [|p q u u' [-> F] _ [ks [-> ->]]]; [now exists []|]. destruct p as [r| |]; try easy. now exists (r :: ks). }
  destruct E as [ks [-> ->]]. unfold vwma_win. cbn [fst snd]. rewrite x_fsum.
  apply s_div_w. eapply s_conv; [eapply (vwma_fold_sh g x x' ks _ _ 0); [eassumption|rewrite map_length in Lu; congruence|]|ring].
  eapply s_conv; [apply s_same|ring].
Qed.
