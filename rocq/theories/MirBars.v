(** * MirBars: the functions of whole bars on mirrored bars. *)

From Coq Require Import Lia.
From Verif Require Shift.
From Verif Require Import Base BaseFacts Num Scale Mirror.
From Verif Require Import Distribution Regression Smooth Correlation Volatility Volume Trend Momentum.
From Verif Require Import MirRel.
Local Unset Implicit Arguments.

(** Bars: (high, low) exchanged and negated. *)
Section Bars.
  Context {F : Type} {FO : FOps F} {FS : FSym F}.
  Local Notation ss k := (Forall2 (sm k)).
  Local Open Scope F_scope.
  Variables (op hi lo cl op' hi' lo' cl' : list F).
  Hypothesis Ho : ss N op op'.
  Hypothesis Hl : ss N lo hi'.
  Hypothesis Hh : ss N hi lo'.
  Hypothesis Hc : ss N cl cl'.

  (** What a band does: (upper, lower) becomes the opposites of (lower, upper). *)
  Definition band (x y : F * F) : Prop := sm O (snd x) (fst y) /\ sm O (fst x) (snd y).

  Lemma range_mi : ss E (hl_range hi lo) (hl_range hi' lo').
  Proof. unfold hl_range. ls. Qed.
  Lemma range_eq : hl_range hi' lo' = hl_range hi lo.
  Proof. apply f2_eq, range_mi. Qed.
  Lemma mass_mi s n : rrel (ss E) (mass hi lo s n) (mass hi' lo' s n).
  Proof. unfold mass. rewrite range_eq. rr. Qed.
  Lemma gri_mi w : rrel (ss E) (gri hi lo w) (gri hi' lo' w).
  Proof. unfold gri. rr. sw r_rwindows. rr. Qed.
  Lemma m_tr h l c h' l' c' : sm N l h' -> sm N h l' -> sm N c c' -> sm E (tr_bar h l c) (tr_bar h' l' c').
  Proof.
    intros. unfold tr_bar. cbn. rewrite max_last. cbn.
    rewrite (s_x h h' l l'), (b_o (h - c) (l' - c')), (b_o (l - c) (h' - c')) by ar. reflexivity.
  Qed.
  Lemma true_range_mi : rrel (ss E) (true_range hi lo cl) (true_range hi' lo' cl').
  Proof.
    unfold true_range. sw r_slice_from. rewrite (f2_length _ _ _ Hc). rr.
    eapply (f2_map (prel (xrel (sm N) (sm N)) (sm N))); [ls|]. intros. brk. now apply m_tr.
  Qed.
  Lemma tr_mi : rrel (ss E) (tr hi lo cl) (tr hi' lo' cl').
  Proof. unfold tr. eapply r_bind; [apply true_range_mi|]. intros. rr. Qed.
  Lemma atr_mi w : rrel (ss E) (atr hi lo cl w) (atr hi' lo' cl' w).
  Proof. unfold atr. eapply r_bind; [apply true_range_mi|]. intros. rr. Qed.
  Lemma keltner_mi w : rrel (Forall2 (fun '(m, u, d) '(m', u', d') => sm O m m' /\ sm O d u' /\ sm O u d')) (keltner hi lo cl w) (keltner hi' lo' cl' w).
  Proof.
    unfold keltner. call ewma_mi. eapply r_bind; [apply atr_mi|]. intros. rr.
    eapply (f2_map (prel (sm O) (sm E))); [ls|]. intros. brk. repeat split; ar.
  Qed.
  Lemma hlc3_mi : ss O (hlc3 hi lo cl) (hlc3 hi' lo' cl').
  Proof. unfold hlc3. ls. Qed.
  Lemma typical_mi w : rrel (ss O) (typical hi lo cl w) (typical hi' lo' cl' w).
  Proof. unfold typical. apply sma_mi, hlc3_mi. Qed.
  Lemma donchian_mi w : rrel (Forall2 (fun '(u, m, d) '(u', m', d') => sm N d u' /\ sm O m m' /\ sm N u d')) (donchian hi lo w) (donchian hi' lo' w).
  Proof.
    unfold donchian. rr. sw r_rwindows. rr. apply f2_app.
    - eapply (f2_map (xrel (ss N) (ss N))); [ls|]. intros. brk. unfold donchian_win. cbn [fst snd]. repeat split; ar.
    - apply f2_repeat. repeat split; ar.
  Qed.
  Lemma arg_first_mi x x' (b b' : F -> F -> bool) : ss O x x' -> (forall u u' v v', sm O u u' -> sm O v v' -> b' u' v' = b u v) -> arg_first b' x' = arg_first b x.
  Proof.
    intros H K. unfold arg_first.
    set (u := fold_left _ (enumerate x') _). set (u' := fold_left _ (enumerate x) _).
    assert (G : prel eq (sm O) u' u).
    { eapply (f2_fold (prel eq (sm O)) (prel eq (sm O))); [now apply f2_enumerate|split; [easy|ar]|].
      intros [? ?] [? ?] [? y] [? y'] [? ?] [? ?]. cbn [fst snd] in *. subst. rewrite (K y y' f f0) by easy. destruct (b y f); now split. }
    symmetry. apply G.
  Qed.
  Lemma fbands_mi : Forall2 band (fbands hi lo) (fbands hi' lo').
  Proof.
    unfold fbands. apply f2_app.
    - eapply (f2_scan (xrel (ss N) (ss N)) band band); [ls|split; ar|]. intros [u d] [u' d'] [h l] [h' l'] [A B] [C D]. cbn [fst snd] in *.
      unfold fbands_step.
      rewrite (arg_first_mi l h' fltb fgtb), (arg_first_mi h l' fgtb fltb).
      + cbn [fst snd]. destruct (arg_first fgtb h =? 2)%nat, (arg_first fltb l =? 2)%nat; repeat split; cbn [fst snd]; ar.
      + now apply f2_no.
      + intros. unfold fgtb. now apply lt_o.
      + now apply f2_no.
      + intros. unfold fgtb. now apply lt_o.
    - apply f2_repeat. split; cbn [fst snd]; ar.
  Qed.
  Lemma starc_mi w n k : rrel (Forall2 band) (starc hi lo cl w n k) (starc hi' lo' cl' w n k).
  Proof.
    unfold starc. eapply r_bind; [apply atr_mi|]. intros. call sma_mi. rr.
    eapply (f2_map (prel (sm E) (sm O))); [ls|]. intros. brk. split; cbn [fst snd]; ar.
  Qed.
  Lemma cvi_mi w n : rrel (ss E) (cvi hi lo w n) (cvi hi' lo' w n).
  Proof. unfold cvi. rewrite range_eq. rr. Qed.
  Lemma chop_mi w : rrel (ss E) (chop hi lo cl w) (chop hi' lo' cl' w).
  Proof.
    unfold chop. sw r_slice_from. eapply r_bind; [apply true_range_mi|]. intros. brk. sw r_rwindows. rr.
  Qed.
  Lemma abs_diffs_mi : abs_diffs cl' = abs_diffs cl.
  Proof. apply f2_eq. unfold abs_diffs. ls. Qed.
  Lemma vhf_mi w : rrel (ss E) (vhf hi lo cl w) (vhf hi' lo' cl' w).
  Proof. unfold vhf. rewrite abs_diffs_mi. rr. sw r_rwindows. rr. Qed.
  Lemma wcp_mi : ss O (wcp hi lo cl) (wcp hi' lo' cl').
  Proof. unfold wcp. ls. Qed.

  (** ** momentum *)
  Lemma elder_ray_mi w : rrel (Forall2 band) (elder_ray hi lo cl w) (elder_ray hi' lo' cl' w).
  Proof.
    unfold elder_ray. call ewma_mi. rr. eapply (f2_map (prel (xrel (sm N) (sm N)) (sm O))); [ls|]. intros. brk. split; cbn [fst snd]; ar.
  Qed.
  Lemma pgo_mi w : rrel (ss O) (pgo hi lo cl w) (pgo hi' lo' cl' w).
  Proof. unfold pgo. eapply r_bind; [apply true_range_mi|]. intros. rr. call sma_mi. rr. Qed.
  Lemma relative_vigor_mi w : rrel (ss O) (relative_vigor op hi lo cl w) (relative_vigor op' hi' lo' cl' w).
  Proof.
    unfold relative_vigor. cbv zeta.
    eapply r_bind; [eapply sma_mi|intros ? ? ?].
    - unfold swma4. ls.
    - change (map (fun '(h, l) => h - l) (combine hi' lo')) with (hl_range hi' lo'). rewrite range_eq. fold (hl_range hi lo). rr.
  Qed.
  Lemma bal_power_mi w : rrel (ss O) (bal_power op hi lo cl w) (bal_power op' hi' lo' cl' w).
  Proof.
    unfold bal_power. apply ewma_mi.
    ls.
  Qed.
  Lemma cci_mi w : rrel (ss O) (cci hi lo cl w) (cci hi' lo' cl' w).
  Proof.
    unfold cci. pose proof hlc3_mi as T. rr. apply f2_app; [|ls]. eapply f2_map; [ls|]. intros x x' Hx. unfold cci_win.
    set (m := fsum x / fofnat w). set (m' := fsum x' / fofnat w).
    assert (sm O m m') by (unfold m, m'; ar). clearbody m m'.
    assert (D : sm E (fold_left (fun acc v => acc + fabs (v - m)) x #0) (fold_left (fun acc v => acc + fabs (v - m')) x' #0)).
    { eapply (f2_fold (sm O) (sm E)); [ls|ar|]. intros. brk. ar. }
    cbv zeta. rewrite D. ar.
  Qed.
  Lemma deli_mi w : rrel (ss O) (deli hi lo w) (deli hi' lo' w).
  Proof.
    unfold deli.
    assert (G : ss O (deli_quotes hi lo) (deli_quotes hi' lo')).
    { unfold deli_quotes, pairs. eapply (f2_map (xrel (prel (sm N) (sm N)) (prel (sm N) (sm N)))).
      - apply f2_xcombine; apply f2_combine; ls.
      - intros. brk. ar. }
    call ewma_mi. call ewma_mi. rr. call ewma_mi. rr.
  Qed.

  (** ** swing index *)
  Lemma m_swing k po o h l pc c po' o' h' l' pc' c' : sm N po po' -> sm N o o' -> sm N l h' -> sm N h l' -> sm N pc pc' -> sm N c c' ->
    sm O (swing_bar k po o h l pc c) (swing_bar k po' o' h' l' pc' c').
  Proof.
    intros. unfold swing_bar.
    assert (A : fabs (h' - pc') = fabs (l - pc)) by (apply b_o; ar).
    assert (B : fabs (l' - pc') = fabs (h - pc)) by (apply b_o; ar).
    assert (C : h' - l' = h - l) by (apply s_x; ar).
    assert (D : fabs (pc' - po') = fabs (pc - po)) by (apply b_o; ar).
    cbv zeta. rewrite A, B, C, D, (max_abs (l - pc) (h - pc)).
    set (r1 := h - pc) in *. set (r2 := l - pc) in *. set (r3 := h - l) in *. set (r4 := fabs (pc - po) / #4) in *.
    match goal with |- sm O (_ / ?r * _ * _ / _) (_ / ?r' * _ * _ / _) => assert (R : r' = r) end.
    { destruct (fabs r2 =? fmax (fmax (fabs r1) (fabs r2)) r3) eqn:P, (fabs r1 =? fmax (fmax (fabs r1) (fabs r2)) r3) eqn:Q; try easy.
      rewrite (abs_eqb r1 r2); [easy|]. eapply eqb_join; eassumption. }
    rewrite R. ar.
  Qed.
  Lemma swing_mi k : rrel (ss O) (swing op hi lo cl k) (swing op' hi' lo' cl' k).
  Proof.
    unfold swing. rewrite (f2_length _ _ _ Ho), (f2_length _ _ _ Hc). rr. sw r_slice_from. rr.
    eapply f2_map; [ls|]. intros. brk. now apply m_swing.
  Qed.
  Lemma si_mi k : rrel (ss O) (si op hi lo cl k) (si op' hi' lo' cl' k).
  Proof. unfold si. eapply r_bind; [apply swing_mi|]. intros. rr. Qed.
  Lemma asi_mi k : rrel (ss O) (asi op hi lo cl k) (asi op' hi' lo' cl' k).
  Proof.
    unfold asi. eapply r_bind; [apply swing_mi|]. intros. rr. constructor; [ar|].
    eapply (f2_scan (sm O) (sm O) (sm O)); [ls|ar|]. intros. unfold acc_step. split; ar.
  Qed.

  (** ** directional movement *)
  Definition bar5 (x y : F * F * F * F * F) : Prop :=
    let '(ph, h, pl, l, c) := x in let '(ph', h', pl', l', c') := y in
    sm N pl ph' /\ sm N l h' /\ sm N ph pl' /\ sm N h l' /\ sm N c c'.
  Lemma f2_bar5 a b c d e a' b' c' d' e' : ss N c a' -> ss N d b' -> ss N a c' -> ss N b d' -> ss N e e' ->
    Forall2 bar5 (zip5 a b c d e) (zip5 a' b' c' d' e').
  Proof.
    unfold zip5, zip4, zip3. intros H. revert a b d e b' c' d' e'. induction H; intros a b d e b' c' d' e' A B C D.
    - destruct (combine a b); cbn; constructor.
    - assert (X : forall T (l : list T), combine l (@nil F) = []) by (intros ? []; reflexivity).
      inversion B; subst; inversion C; subst; inversion A; subst; inversion D; subst; cbn [combine]; rewrite ?X; cbn [combine]; rewrite ?X; try (apply Forall2_nil); try (constructor; [now repeat split|now apply IHForall2]).
  Qed.
  Definition ends (l : list F) : result (list F * list F) :=
    if (length l =? 0)%nat then Panic else Ok (firstn (length l - 1) l, skipn 1 l).
  Lemma ends_mi l l' : ss N l l' -> rrel (prel (ss N) (ss N)) (ends l) (ends l').
  Proof. intros H. unfold ends. rewrite (f2_length _ _ _ H). destruct (_ =? 0)%nat; [easy|]. split; cbn [fst snd]; ls. Qed.
  Lemma bar_pairs_ends (h l c : list F) : bar_pairs h l c =
    bind (ends h) (fun a => bind (ends l) (fun b => bind (ends c) (fun c => Ok (zip5 (fst a) (snd a) (fst b) (snd b) (fst c))))).
  Proof.
    assert (P : forall n, (n - 1 <=? n)%nat = true) by (intros; apply Nat.leb_le; lia).
    unfold bar_pairs, ends, usub, slice_to, slice_from.
    destruct h; [reflexivity|]. cbn [length Nat.eqb Nat.leb bind]. rewrite P. cbn [bind fst snd].
    destruct l; [reflexivity|]. cbn [length Nat.eqb Nat.leb bind]. rewrite P. cbn [bind fst snd].
    destruct c; [reflexivity|]. cbn [length Nat.eqb Nat.leb bind]. rewrite P. reflexivity.
  Qed.
  Lemma bar_pairs_mi : rrel (Forall2 bar5) (bar_pairs hi lo cl) (bar_pairs hi' lo' cl').
  Proof.
    rewrite !bar_pairs_ends. eapply r_bind2; [apply ends_mi; exact Hl|apply ends_mi; exact Hh|]. intros a b a' b' [? ?] [? ?].
    eapply r_bind; [apply ends_mi; exact Hc|]. intros c c' [? ?]. apply r_ok. now apply f2_bar5.
  Qed.
  Lemma m_btr x y : bar5 x y -> sm E (bar_tr x) (bar_tr y).
  Proof. destruct x as [[[[? ?] ?] ?] ?], y as [[[[? ?] ?] ?] ?]. intros (? & ? & ? & ? & ?). now apply m_tr. Qed.
  Lemma m_dmp x y : bar5 x y -> sm E (dm_neg x) (dm_pos y).
  Proof.
    destruct x as [[[[ph h] pl] l] c], y as [[[[ph' h'] pl'] l'] c']. intros (? & ? & ? & ? & ?). unfold dm_pos, dm_neg.
    assert (A : h' - ph' = pl - l) by (apply s_x; ar). assert (B : pl' - l' = h - ph) by (apply s_x; ar). now rewrite A, B.
  Qed.
  Lemma m_dmn x y : bar5 x y -> sm E (dm_pos x) (dm_neg y).
  Proof.
    destruct x as [[[[ph h] pl] l] c], y as [[[[ph' h'] pl'] l'] c']. intros (? & ? & ? & ? & ?). unfold dm_pos, dm_neg.
    assert (A : h' - ph' = pl - l) by (apply s_x; ar). assert (B : pl' - l' = h - ph) by (apply s_x; ar). now rewrite A, B.
  Qed.
  Lemma f2_mapE {A B} (R : A -> B -> Prop) (f : A -> F) (g : B -> F) l l' : (forall x y, R x y -> sm E (f x) (g y)) -> Forall2 R l l' -> map g l' = map f l.
  Proof. intros K H. apply f2_eq. eapply f2_map; [exact H|]. intros. now apply K. Qed.
  Lemma rrel_swap {A A'} (R : A -> A' -> Prop) x y : rrel R x y -> rrel (fun b a => R a b) y x.
  Proof. now destruct x, y. Qed.
  Lemma m_dx a b : sm E (dx_ratio (a, b)) (dx_ratio (b, a)).
  Proof. unfold dx_ratio. ar. Qed.
  Lemma adx_mi w s : rrel (Forall2 (fun '(p, n, a) '(p', n', a') => p' = n /\ n' = p /\ a' = a)) (adx hi lo cl w s) (adx hi' lo' cl' w s).
  Proof.
    unfold adx. eapply r_bind; [apply bar_pairs_mi|]. intros bs bs' B.
    rewrite (f2_mapE bar5 bar_tr bar_tr bs bs' m_btr B), (f2_mapE bar5 dm_neg dm_pos bs bs' m_dmp B), (f2_mapE bar5 dm_pos dm_neg bs bs' m_dmn B).
    destruct (wilder (map bar_tr bs) w) as [t|]; [|easy]. cbn [bind].
    destruct (wilder (map dm_pos bs) w) as [p|], (wilder (map dm_neg bs) w) as [n|]; try easy. cbn [bind].
    destruct (usub w 1) as [k|]; [|easy]. cbn [bind].
    destruct (slice_from (map di_ratio (combine p t)) k) as [dp|], (slice_from (map di_ratio (combine n t)) k) as [dn|]; try easy. cbn [bind].
    assert (X : map dx_ratio (combine dn dp) = map dx_ratio (combine dp dn)).
    { clear - FS. revert dn. induction dp as [|a dp IH]; intros [|b dn]; try easy. cbn [combine map]. f_equal; [|apply IH]. apply m_dx. }
    rewrite X. destruct (wilder _ s) as [a|]; [|easy]. cbn [bind]. apply r_ok. constructor; [easy|].
    set (P := map di_ratio (combine p t)). set (M := map di_ratio (combine n t)). set (A := pad k fnan ++ a). clearbody P M A. clear - FS.
    unfold zip3. revert M A. induction P as [|x P IH]; intros [|y M] [|z A]; cbn; try constructor; [easy|]. apply IH.
  Qed.
  Definition swapped (x y : F * F) : Prop := fst y = snd x /\ snd y = fst x.
  Lemma vortex_mi w : rrel (Forall2 swapped) (vortex hi lo cl w) (vortex hi' lo' cl' w).
  Proof.
    unfold vortex. eapply r_bind; [apply bar_pairs_mi|]. intros bs bs' B.
    set (t3 := fun x y : F * F * F => let '(p, n, t) := x in let '(p', n', t') := y in p' = n /\ n' = p /\ t' = t).
    eapply r_bind; [eapply (r_rwindows t3)|].
    - eapply f2_map; [exact B|]. intros x y. destruct x as [[[[? ?] ?] ?] ?], y as [[[[? ?] ?] ?] ?]. intros (? & ? & ? & ? & ?).
      unfold vortex_bar, t3. repeat split; [apply b_o; ar|apply b_o; ar|]. now apply m_tr.
    - intros ws ws' W. apply r_ok. apply f2_app; [|apply f2_repeat; now split]. eapply f2_map; [exact W|]. intros x y H. unfold vortex_win.
      set (u := match x with [] => _ | _ => _ end). set (v := match y with [] => _ | _ => _ end).
      assert (G : t3 u v).
      { unfold u, v. destruct H as [|a b l l' A L]; [easy|]. eapply (f2_fold t3 t3); [exact L|exact A|].
        intros [[? ?] ?] [[? ?] ?] [[? ?] ?] [[? ?] ?] (-> & -> & ->) (-> & -> & ->). now unfold t3. }
      clearbody u v. destruct u as [[? ?] ?], v as [[? ?] ?]. destruct G as (-> & -> & ->). now split.
  Qed.
  Lemma rwi_mi w : rrel (Forall2 swapped) (rwi hi lo cl w) (rwi hi' lo' cl' w).
  Proof.
    unfold rwi.
    assert (X : forall (h l c : list F), (let* h1 := slice_from h 1 in let* wh := rwindows w h1 in let* l1 := slice_from l 1 in let* wl := rwindows w l1 in
      let* t := true_range h l c in let* wt := rwindows w t in Ok (pad w (fnan, fnan) ++ map (rwi_win w) (zip3 wh wl wt)))
      = bind (let* h1 := slice_from h 1 in rwindows w h1) (fun wh => bind (let* l1 := slice_from l 1 in rwindows w l1) (fun wl =>
        let* t := true_range h l c in let* wt := rwindows w t in Ok (pad w (fnan, fnan) ++ map (rwi_win w) (zip3 wh wl wt))))).
    { intros. destruct (slice_from h 1) as [x|], (slice_from l 1) as [y|]; cbn [bind]; try reflexivity; destruct (rwindows w x); try reflexivity; destruct (rwindows w y); reflexivity. }
    rewrite !X. eapply r_bind2; [eapply r_bind; [eapply r_slice_from; exact Hl|]; intros; eapply r_rwindows; eassumption
      |eapply r_bind; [eapply r_slice_from; exact Hh|]; intros; eapply r_rwindows; eassumption|].
    intros a b a' b' A B. eapply r_bind; [apply true_range_mi|]. intros. rr. apply f2_app; [|apply f2_repeat; now split].
    eapply (f2_map (prel (xrel (ss N) (ss N)) eq)).
    - unfold zip3. apply f2_combine; [ls|apply f2_refl].
    - intros x x' Hx. brk. unfold rwi_win.
      match goal with |- swapped ?X ?Y => match X with context [fold_left ?f ?l ?i] => set (u := fold_left f l i); match Y with context [fold_left ?f' ?l' ?i'] => set (v := fold_left f' l' i') end end end.
      set (t3 := fun u v : F * F * F => let '(p, n, t) := u in let '(p', n', t') := v in p' = n /\ n' = p /\ t' = t).
      assert (G : t3 u v).
      { unfold u, v. eapply (f2_fold eq t3); [apply f2_refl|easy|]. intros [[p n] t] [[p' n'] t'] i ? (-> & -> & ->) <-. unfold rwi_step. repeat split; f_equal; f_equal; apply s_x; ar. }
      clearbody u v. destruct u as [[? ?] ?], v as [[? ?] ?]. destruct G as (-> & -> & ->). now split.
  Qed.
  Lemma arg_last_mi x x' (b b' : F -> F -> bool) : ss O x x' -> (forall u u' v v', sm O u u' -> sm O v v' -> b' u' v' = b u v) -> arg_last b' x' = arg_last b x.
  Proof. exact (arg_first_mi x x' b b'). Qed.
  Lemma aroon_mi w : rrel (Forall2 swapped) (aroon hi lo w) (aroon hi' lo' w).
  Proof.
    unfold aroon. apply r_ok. apply f2_app; [|apply f2_repeat; now split].
    eapply (f2_map (xrel (ss N) (ss N))); [ls|]. intros. brk. unfold aroon_win.
    rewrite (arg_last_mi l0 l1 fleb fgeb), (arg_last_mi l l2 fgeb fleb).
    - now split.
    - now apply f2_no.
    - intros. unfold fgeb. now apply le_o.
    - now apply f2_no.
    - intros. unfold fgeb. now apply le_o.
  Qed.
  Lemma chandelier_mi w k : rrel (Forall2 band) (chandelier hi lo cl w k) (chandelier hi' lo' cl' w k).
  Proof.
    unfold chandelier. sw r_rwindows. eapply r_bind; [apply atr_mi|]. intros. brk. rr. apply f2_app; [|apply f2_repeat; split; cbn [fst snd]; ar].
    eapply f2_map; [ls|]. intros. brk. unfold stop_win. split; cbn [fst snd]; ar.
  Qed.
  Lemma midpoints_mi w : rrel (ss O) (midpoints hi lo w) (midpoints hi' lo' w).
  Proof. unfold midpoints. sw r_rwindows. rr. Qed.
  Lemma ichimoku_mi a b c d : rrel (Forall2 (prel (prel (prel (prel (sm O) (sm O)) (sm O)) (sm O)) (sm O))) (ichimoku hi lo cl a b c d) (ichimoku hi' lo' cl' a b c d).
  Proof.
    unfold ichimoku. rr. eapply r_bind; [apply midpoints_mi|]. intros. rr. eapply r_bind; [apply midpoints_mi|]. intros. rr. eapply r_bind; [apply midpoints_mi|]. intros. rr.
  Qed.

  (** ** volume *)
  Variable vol : list F.
  Lemma ad_mi : rrel (ss O) (ad hi lo cl vol None) (ad hi' lo' cl' vol None).
  Proof.
    unfold ad. cbn [unwrap_or negb]. rr. eapply (f2_scan (prel (prel (xrel (sm N) (sm N)) (sm N)) eq) (sm O) (sm O)); [|ar|].
    - unfold zip4, zip3. apply f2_combine; [ls|apply f2_refl].
    - intros. brk. unfold ad_step. split; ar.
  Qed.
  Lemma cmf_mi w : rrel (ss O) (cmf hi lo cl vol w) (cmf hi' lo' cl' vol w).
  Proof.
    unfold cmf.
    assert (G : ss O (map cmf_bar (zip4 hi lo cl vol)) (map cmf_bar (zip4 hi' lo' cl' vol))).
    { eapply (f2_map (prel (prel (xrel (sm N) (sm N)) (sm N)) eq)).
      - unfold zip4, zip3. apply f2_combine; [ls|apply f2_refl].
      - intros. brk. unfold cmf_bar. ar. }
    rr.
  Qed.
  Lemma bw_mfi_mi : ss E (bw_mfi hi lo vol) (bw_mfi hi' lo' vol).
  Proof. unfold bw_mfi. ls. Qed.
  Lemma vwap_mi r : rrel (ss O) (vwap hi lo cl vol r) (vwap hi' lo' cl' vol r).
  Proof.
    unfold vwap. rewrite (f2_length _ _ _ Hc).
    eapply (r_scan (prel eq (prel (prel (xrel (sm N) (sm N)) (sm N)) eq)) (sm O) (prel (prel (sm O) eq) eq)).
    - apply f2_enumerate. unfold zip4, zip3. apply f2_combine; [ls|apply f2_refl].
    - repeat split. ar.
    - intros [[? ?] ?] [[? ?] ?] [i x] [i' x'] [[? ?] ?] [? ?]. cbn [fst snd] in *. subst. brk. unfold vwap_step.
      destruct (idx l0 0); [|easy]. cbn [bind]. destruct (_ =? _)%nat; apply r_ok; repeat split; cbn [fst snd]; ar.
  Qed.
  Lemma steps3_mi : rrel (Forall2 (prel (prel (sm N) (sm N)) eq)) (steps3 cl vol) (steps3 cl' vol).
  Proof. unfold steps3. rewrite (f2_length _ _ _ Hc). rr. Qed.
  Lemma elder_force_mi w : rrel (ss O) (elder_force cl vol w) (elder_force cl' vol w).
  Proof. unfold elder_force. eapply r_bind; [apply steps3_mi|]. intros. call ewma_mi. rr. Qed.
End Bars.

Section Single.
  Context {F : Type} {FO : FOps F} {FS : FSym F}.
  Local Notation ss k := (Forall2 (sm k)).
  Local Open Scope F_scope.

  Lemma mape_mi x x' y y' : ss O x x' -> ss O y y' -> ss E (mape x y) (mape x' y').
  Proof.
    intros. unfold mape, obs_est. eapply (f2_scan (prel (prel eq (sm O)) (sm O)) (sm E) (sm E)); [apply f2_combine; [now apply f2_enumerate|ls]|ar|].
    intros. brk.
    match goal with A : sm O ?a ?a', B : sm O ?b ?b' |- _ => assert (X : fabs ((a' - b') / a') = fabs ((a - b) / a)) end.
    { apply abs_div; [apply b_o; ar|apply b_o; ar]. }
    rewrite X. split; ar.
  Qed.
  Lemma m_minv : sm N fminval fmaxval.
  Proof. cbn. unfold fminval. symmetry. apply neg_neg. Qed.
  Lemma m_maxv : sm N fmaxval fminval.
  Proof. reflexivity. Qed.
  Lemma f2_eq1 (x y : F) : sm E x y -> y = x. Proof. easy. Qed.
  Lemma macd_mi l l' a b : ss O l l' -> rrel (ss O) (macd l a b) (macd l' a b).
  Proof. intros. unfold macd. call ewma_mi. call ewma_mi. rr. Qed.
  Lemma apo_mi l l' a b : ss O l l' -> rrel (ss O) (apo l a b) (apo l' a b).
  Proof. intros. unfold apo. call ewma_mi. call ewma_mi. rr. Qed.
  Lemma cmo_mi l l' w : ss O l l' -> rrel (ss O) (cmo l w) (cmo l' w).
  Proof. intros. unfold cmo. pose proof (cmo_raw_mi l l' w H). rr. Qed.
  Lemma qstick_mi o o' l l' w : ss O o o' -> ss O l l' -> rrel (ss O) (qstick o l w) (qstick o' l' w).
  Proof. intros. unfold qstick. apply ewma_mi. ls. Qed.
  Lemma tsi_mi l l' a b : ss O l l' -> rrel (ss O) (tsi l a b) (tsi l' a b).
  Proof.
    intros. unfold tsi, pairs.
    set (d := map _ (combine l _)). set (d' := map _ (combine l' _)).
    assert (D : ss O d d') by (unfold d, d'; ls). clearbody d d'.
    assert (A : map fabs d' = map fabs d) by (apply f2_eq; ls).
    cbv zeta. rewrite A. call ewma_mi. rr. call ewma_mi. rr.
  Qed.
  Lemma vstd_dev_mi l l' w k : ss O l l' -> rrel (ss E) (vstd_dev l w k) (vstd_dev l' w k).
  Proof. intros. unfold vstd_dev. call std_dev_mi. rr. Qed.
  Lemma bbands_mi l l' w k m : ss O l l' ->
    rrel (Forall2 (fun '(u, m, d) '(u', m', d') => sm O d u' /\ sm O m m' /\ sm O u d')) (bbands l w k m) (bbands l' w k m).
  Proof.
    intros. unfold bbands. call ma_mi. call vstd_dev_mi. rr. eapply (f2_map (prel (sm O) (sm E))); [ls|]. intros. brk. repeat split; ar.
  Qed.
  Lemma dpo_mi l l' w m : ss O l l' -> rrel (ss O) (dpo l w m) (dpo l' w m).
  Proof. intros. unfold dpo. call ma_mi. rr. Qed.
  Lemma displaced_mi l l' a b c : ss O l l' -> rrel (ss O) (displaced l a b c) (displaced l' a b c).
  Proof. intros. unfold displaced. call wilder_mi. rr. Qed.
  Lemma alligator_mi l l' a b c d e f : ss O l l' -> rrel (Forall2 (prel (prel (sm O) (sm O)) (sm O))) (alligator l a b c d e f) (alligator l' a b c d e f).
  Proof. intros. unfold alligator. call displaced_mi. call displaced_mi. call displaced_mi. rr. Qed.
  Lemma gator_mi l l' a b c d e f : ss O l l' -> rrel (Forall2 (prel (sm E) (sm E))) (gator l a b c d e f) (gator l' a b c d e f).
  Proof.
    intros. unfold gator. call alligator_mi. rr.
  Qed.
  Lemma vwma_mi l l' v w : ss O l l' -> rrel (ss O) (vwma l v w) (vwma l' v w).
  Proof.
    intros. unfold vwma. rr. apply f2_app; [|ls]. eapply (f2_map (prel (ss O) eq)); [apply f2_combine; [ls|apply f2_refl]|]. intros. brk.
    unfold vwma_win. cbn [fst snd]. apply d_o; [|ar]. eapply (f2_fold (prel (sm O) eq) (sm O)); [apply f2_combine; [ls|apply f2_refl]|ar|].
    intros. brk. ar.
  Qed.

  (** ** a series negated against another one *)
  Lemma r_zipw k j x x' y y' w : ss k x x' -> ss j y y' -> rrel (Forall2 (prel (ss k) (ss j))) (zip_windows w x y) (zip_windows w x' y').
  Proof. intros. unfold zip_windows. rr. Qed.
  Definition s5 (j k : kind) : F * F * F * F * F -> F * F * F * F * F -> Prop := prel (prel (prel (prel (sm O) (sm j)) (sm k)) (sm E)) (sm E).
  Lemma m_sums_l x x' y : ss N x x' -> s5 O E (pcc_sums x y) (pcc_sums x' y).
  Proof.
    intros. unfold pcc_sums. eapply (f2_fold (prel (sm N) (sm E)) (s5 O E)); [ls|repeat split; ar|].
    unfold s5. intros. brk. repeat split; cbn [fst snd]; ar.
  Qed.
  Lemma m_sums_r x y y' : ss N y y' -> s5 E O (pcc_sums x y) (pcc_sums x y').
  Proof.
    intros. unfold pcc_sums. eapply (f2_fold (prel (sm E) (sm N)) (s5 E O)); [ls|repeat split; ar|].
    unfold s5. intros. brk. repeat split; cbn [fst snd]; ar.
  Qed.
  Lemma pcc_mi_l x x' y w : ss N x x' -> rrel (ss O) (pcc x y w) (pcc x' y w).
  Proof.
    intros A. unfold pcc. rr. eapply r_bind; [eapply (r_zipw N E); [ls|ls]|]. intros. rr. apply f2_app; [|ls].
    eapply f2_map; [ls|]. intros [u v] [u' v'] [B C]. cbn [fst snd] in *. apply f2_eq in C. subst. unfold pcc_win. cbn [fst snd].
    pose proof (m_sums_l u u' v B) as G. destruct (pcc_sums u v) as [[[[? ?] ?] ?] ?], (pcc_sums u' v) as [[[[? ?] ?] ?] ?].
    destruct G as [[[[? ?] ?] ?] ?]. cbn [fst snd] in *. brk. ar.
  Qed.
  Lemma pcc_mi_r x y y' w : ss N y y' -> rrel (ss O) (pcc x y w) (pcc x y' w).
  Proof.
    intros A. unfold pcc. rr. eapply r_bind; [eapply (r_zipw E N); [ls|ls]|]. intros. rr. apply f2_app; [|ls].
    eapply f2_map; [ls|]. intros [u v] [u' v'] [B C]. cbn [fst snd] in *. apply f2_eq in B. subst. unfold pcc_win. cbn [fst snd].
    pose proof (m_sums_r u v v' C) as G. destruct (pcc_sums u v) as [[[[? ?] ?] ?] ?], (pcc_sums u v') as [[[[? ?] ?] ?] ?].
    destruct G as [[[[? ?] ?] ?] ?]. cbn [fst snd] in *. brk. ar.
  Qed.
  Lemma rsq_mi_l x x' y w : ss N x x' -> rrel (ss E) (rsq x y w) (rsq x' y w).
  Proof. intros. unfold rsq. eapply r_bind; [now apply pcc_mi_l|]. intros. rr. Qed.
  Lemma rsq_mi_r x y y' w : ss N y y' -> rrel (ss E) (rsq x y w) (rsq x y' w).
  Proof. intros. unfold rsq. eapply r_bind; [now apply pcc_mi_r|]. intros. rr. Qed.
  Lemma m_dist x x' i j : ss O x x' -> dist x' i j = dist x i j.
  Proof. intros. unfold dist. apply b_o. ar. Qed.
  Lemma m_centred x x' : ss O x x' -> centred_matrix x' = centred_matrix x.
  Proof.
    intros H. assert (L := f2_length _ _ _ H).
    assert (R : map (row_mean x') (seq 0 (length x)) = map (row_mean x) (seq 0 (length x))).
    { apply map_ext. intros i. unfold row_mean. rewrite L. do 2 f_equal. apply map_ext. intros. now apply m_dist. }
    assert (M : matrix_mean x' = matrix_mean x).
    { unfold matrix_mean. rewrite L. do 2 f_equal.
      - apply f2_eq1. eapply (f2_fold eq (sm E)); [apply f2_refl|easy|]. intros ? ? [? ?] ? B <-. cbn in B. subst. cbn. now rewrite (m_dist x x').
      - apply f2_eq1. eapply (f2_fold eq (sm E)); [apply f2_refl|easy|]. intros ? ? ? ? B <-. cbn in B. subst. cbn. now rewrite (m_dist x x'). }
    unfold centred_matrix. rewrite L, M, R. apply flat_map_ext. intros i. apply map_ext. intros j. unfold centred. now rewrite (m_dist x x').
  Qed.
  Lemma dcor_mi_l x x' y w : ss O x x' -> rrel (ss E) (dcor x y w) (dcor x' y w).
  Proof.
    intros. unfold dcor. rr. eapply r_bind; [eapply (r_zipw O E); [ls|ls]|]. intros. rr. apply f2_app; [|ls].
    eapply f2_map; [ls|]. intros [u v] [u' v'] [B C]. cbn [fst snd] in *. apply f2_eq in C. subst. unfold dcor_win. cbn [fst snd]. rewrite (m_centred u u') by easy. ar.
  Qed.
  Lemma dcor_mi_r x y y' w : ss O y y' -> rrel (ss E) (dcor x y w) (dcor x y' w).
  Proof.
    intros. unfold dcor. rr. eapply r_bind; [eapply (r_zipw E O); [ls|ls]|]. intros. rr. apply f2_app; [|ls].
    eapply f2_map; [ls|]. intros [u v] [u' v'] [B C]. cbn [fst snd] in *. apply f2_eq in B. subst. unfold dcor_win. cbn [fst snd]. rewrite (m_centred v v') by easy. ar.
  Qed.

  (** ** highest and lowest value *)
  Lemma frama_mi l l' w : ss N l l' -> rrel (orel (ss O)) (frama l w) (frama l' w).
  Proof.
    intros. unfold frama. destruct (negb _); [exact I|]. rr. cbn [orel]. apply f2_app; [|ls].
    eapply (f2_scan (ss N) (sm O) (sm O)); [ls|ar|]. intros st st' x x' Hs Hx. unfold frama_step.
    match goal with |- prel _ _ ?X ?Y => match X with context [fold_left ?f ?l ?i] => set (u := fold_left f l i); match Y with context [fold_left ?f' ?l' ?i'] => set (v := fold_left f' l' i') end end end.
    set (q := fun u v : F * F * F * F => let '(a, b, c, d) := u in let '(a', b', c', d') := v in sm N b a' /\ sm N a b' /\ sm N d c' /\ sm N c d').
    assert (G : q u v).
    { unfold u, v. eapply (f2_fold (prel (sm N) (sm N)) q); [ls|exact (conj m_maxv (conj m_minv (conj m_maxv m_minv)))|].
      intros [[[? ?] ?] ?] [[[? ?] ?] ?] [? ?] [? ?] (? & ? & ? & ?) [? ?]. cbn [fst snd] in *. repeat split; ar. }
    clearbody u v. destruct u as [[[h1 l1] h2] l2], v as [[[h1' l1'] h2'] l2']. destruct G as (? & ? & ? & ?).
    assert (A1 : h1' - l1' = h1 - l1) by (apply s_x; ar). assert (A2 : h2' - l2' = h2 - l2) by (apply s_x; ar).
    assert (A3 : fmax h1' h2' - fmin l1' l2' = fmax h1 h2 - fmin l1 l2) by (apply s_x; ar).
    cbv zeta. rewrite A1, A2, A3. split; ar.
  Qed.
  Lemma rainbow_smas_mi n l l' w : ss O l l' -> rrel (Forall2 (ss O)) (rainbow_smas n l w) (rainbow_smas n l' w).
  Proof.
    revert l l'. induction n; intros; cbn [rainbow_smas]; [apply r_ok; now repeat constructor|].
    call sma_mi. eapply r_bind; [eapply IHn; eassumption|]. intros. apply r_ok. now constructor.
  Qed.
  Lemma m_foldmax k x x' b b' : k = N \/ k = O -> ss k x x' -> sm k b b' -> sm k (fold_left fmax x b) (fold_left fmin x' b').
  Proof. intros. eapply (f2_fold (sm k) (sm k)); [eassumption|easy|]. intros. now apply max_min. Qed.
  Lemma m_foldmin k x x' b b' : k = N \/ k = O -> ss k x x' -> sm k b b' -> sm k (fold_left fmin x b) (fold_left fmax x' b').
  Proof. intros. eapply (f2_fold (sm k) (sm k)); [eassumption|easy|]. intros. now apply min_max. Qed.
  Lemma rainbow_mi l l' a b : ss N l l' -> rrel (Forall2 (prel (sm O) (sm Z))) (rainbow l a b) (rainbow l' a b).
  Proof.
    intros H. unfold rainbow. call sma_mi. eapply r_bind; [eapply rainbow_smas_mi; eassumption|]. intros q q' Q. rr. rewrite (f2_length _ _ _ H).
    eapply r_bind; [eapply (r_rmap eq (prel (sm O) (sm Z))); [apply f2_refl|]|].
    - intros i ? <-. unfold rainbow_at. eapply r_bind; [eapply (r_rmap (ss O) (sm O)); [exact Q|]; intros; now apply r_idx|]. intros v v' V. rr.
      eapply r_bind; [eapply (r_rmap eq (sm N)); [apply f2_refl|]; intros ? ? <-; now apply r_idx|]. intros k k' K.
      eapply r_bind; [eapply r_idx; exact H|]. intros x x' Hx. apply r_ok.
      assert (T : sm O (fold_left fadd v #0) (fold_left fadd v' #0)).
      { eapply (f2_fold (sm O) (sm O)); [exact V|ar|]. intros. ar. }
      assert (A : sm N (fold_left fmax k fminval) (fold_left fmin k' fmaxval)) by (apply m_foldmax; auto using m_minv).
      assert (B : sm N (fold_left fmin k fmaxval) (fold_left fmax k' fminval)) by (apply m_foldmin; auto using m_maxv).
      assert (C : sm O (fold_left fmax v fminval) (fold_left fmin v' fmaxval)) by (apply m_foldmax; auto using w_no, m_minv).
      assert (D : sm O (fold_left fmin v fmaxval) (fold_left fmax v' fminval)) by (apply m_foldmin; auto using w_no, m_maxv).
      rewrite (s_x _ (fold_left fmax k' fminval) _ (fold_left fmin k' fmaxval) A B).
      split; cbn [fst snd]; ar.
    - intros. apply r_ok. apply f2_app; [easy|]. apply f2_repeat. split; cbn [fst snd]; ar.
  Qed.
End Single.
