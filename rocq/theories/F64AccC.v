(** * F64AccC: oscillators and error measures in binary64, continued from F64AccB. *)

From Coq Require Import Reals Lra Lia ZArith Sorted.
From Flocq Require Import Core IEEE754.BinarySingleNaN.
From Verif Require Import Base Num Spec BaseFacts XReal XRFacts Scale Bars B64 F64 F64Range F64Err F64Osc.
From Verif Require Import Distribution Regression Correlation Smooth Volatility Trend Momentum Volume.
From Verif Require Import SmoothShape SmoothVals VolatReal VolumeReal MomReal TrendReal CorrReal F64Rel F64Acc F64AccB.
Local Unset Implicit Arguments.
Local Open Scope R_scope.

(** Two lines at once. *)
Definition accurate2 (j k : nat) (r : result (list (f64 * f64))) (e : result (list (xr * xr))) : Prop :=
  match r, e with Ok o, Ok p => Forall2 (fun x X => close j (fst x) (fst X) /\ close k (snd x) (snd X)) o p | Panic, Panic => True | _, _ => False end.
Lemma accurate2_aligned J K k n r o na f e p g : r = Ok o -> aligned o n k na f -> e = Ok p -> aligned p n k (NaN, NaN) g ->
  (forall i, (k <= i < n)%nat -> close J (fst (f i)) (fst (g i)) /\ close K (snd (f i)) (snd (g i))) -> accurate2 J K r e.
Proof.
  intros -> (Lo & Wo & Vo) -> (Lp & Wp & Vp) H. cbn. apply f2_at; [congruence|]. intros i x y Ex Ey.
  assert (Hi : (i < length p)%nat) by (apply nth_error_Some; congruence).
  destruct (Nat.lt_ge_cases i k) as [L|L]; [rewrite Wp in Ey by easy; injection Ey as <-; split; now intros r|].
  assert (i < n)%nat by lia. rewrite Vo in Ex by easy. rewrite Vp in Ey by easy. injection Ex as <-. injection Ey as <-. apply H. easy.
Qed.

Section Fns.
  Context (m : libm).
  Notation B := (B64 m).
  (** *** Stochastic oscillators *)
  Lemma near_stoch_win h l c n w i : (0 < w <= i + 1)%nat -> (i < n)%nat -> bars_ok h l c n ->
    near 4 (-453) 473 (@stoch_win f64 B (last_bars w h i, last_bars w l i, c i)) (@stoch_win xr XR (last_bars w (exactly h) i, last_bars w (exactly l) i, exactly c i)).
  Proof.
    intros Hw Hi H. unfold stoch_win.
    destruct (max_exact m w h i ltac:(lia)) as (St & Et & Ut); [intros; apply H; lia|]. destruct (min_exact m w l i ltac:(lia)) as (Sb & Eb & Ub); [intros; apply H; lia|].
    rewrite Et, Eb. set (top := @max_of f64 B (last_bars w h i)) in *. set (bot := @min_of f64 B (last_bars w l i)) in *.
    destruct (H i ltac:(lia)) as (Sh & Sl & Sc & L1 & L2). specialize (Ut i ltac:(lia) ltac:(lia)). specialize (Ub i ltac:(lia) ltac:(lia)).
    unfold exactly. rewrite !x_sub, x_lit.
    apply (near_quot m 2 1 (-252) (-252) 221 201); [apply (near_mul m 0 1 0 (-252) 20 201); [apply near_lit; lia|apply near_sub; lra || easy|small|lia|lia]|apply near_sub; lra || easy|now eexists|small|lia|lia].
  Qed.
  Lemma stoch_close h l c n w s : (0 < w)%nat -> (0 < s)%nat -> (w - 1 <= n)%nat -> (Z.of_nat s <= 2 ^ 48)%Z -> bars_ok h l c n ->
    accurate2 (s + 5) (2 * s + 6) (@stoch f64 B (series h n) (series l n) (series c n) w s) (@stoch xr XR (series (exactly h) n) (series (exactly l) n) (series (exactly c) n) w s).
  Proof.
    intros Hw Hs Hn Hz H. unfold stoch. rewrite !hlc_windows_bars by easy. cbn [bind]. rewrite !map_map.
    assert (S1 : Forall2 (near 4 (-453) 473) (map (fun i => @stoch_win f64 B (last_bars w h i, last_bars w l i, c i)) (seq (w - 1) (n - (w - 1))))
      (map (fun i => @stoch_win xr XR (last_bars w (exactly h) i, last_bars w (exactly l) i, exactly c i)) (seq (w - 1) (n - (w - 1))))).
    { apply f2_same. intros i Hi. apply in_seq in Hi. apply (near_stoch_win h l c n); easy || lia. }
    pose proof (near_sma m _ _ _ 48 s _ _ S1 Hs ltac:(small) ltac:(lia) ltac:(lia) ltac:(lia) ltac:(lia)) as S1'. clear S1.
    refine (r_bind _ (Forall2 (fun x X => close (s + 5) (fst x) (fst X) /\ close (2 * s + 6) (snd x) (snd X))) _ _ _ _ S1' _). intros a a' Ha.
    refine (r_bind eq _ _ _ _ _ _ _); [unfold usub; now destruct (1 <=? s)|]. intros k2 ? <-.
    refine (r_bind _ _ _ _ _ _ (r_slice_from _ a a' k2 Ha) _). intros t t' Ht.
    pose proof (near_sma m _ _ _ 48 s _ _ Ht Hs ltac:(small) ltac:(lia) ltac:(lia) ltac:(lia) ltac:(lia)) as S2.
    refine (r_bind _ _ _ _ _ _ S2 _). intros b b' Hb.
    refine (r_bind eq _ _ _ _ _ _ _); [unfold usub; now destruct (1 <=? w)|]. intros k1 ? <-.
    apply r_ok. assert (P : forall K lo hi q q' k, few K -> Forall2 (near K lo hi) q q' -> Forall2 (close K) (pad k (@fnan f64 B) ++ q) (pad k (@fnan xr XR) ++ q')).
    { intros K lo hi q q' k HK Hq. apply f2_app; [|apply f2_repeat; now intros r]. clear -HK Hq. induction Hq; constructor; [now apply near_close with lo hi|easy]. }
    assert (Q : forall J K u u' v v', Forall2 (close J) u u' -> Forall2 (close K) v v' -> Forall2 (fun (x : f64 * f64) (X : xr * xr) => close J (fst x) (fst X) /\ close K (snd x) (snd X)) (combine u v) (combine u' v')).
    { clear. intros J K u u' v v' Hu. revert v v'. induction Hu; intros v v' [|]; cbn [combine]; constructor; [easy|now apply IHHu]. }
    apply Q.
    - replace (s + 5)%nat with (S (4 + s)) by lia. apply P with (-453 - 53)%Z (473 + 48)%Z; [small|exact Ha].
    - replace (2 * s + 6)%nat with (S (S (4 + s) + s)) by lia. eapply P; [small|exact Hb].
  Qed.
  Theorem stochastic_f64_accurate h l c n w : (0 < w)%nat -> (w - 1 <= n)%nat -> bars_ok h l c n ->
    accurate2 8 12 (@stochastic f64 B (series h n) (series l n) (series c n) w) (@stochastic xr XR (series (exactly h) n) (series (exactly l) n) (series (exactly c) n) w).
  Proof. intros Hw Hn H. apply (stoch_close h l c n w 3); easy || lia. Qed.
  (** The third line, 3 K - 2 D, is a difference and can lose all its digits. *)
  Theorem kdj_f64_accurate h l c n w s kf df kf' df' : (0 < w)%nat -> (0 < s)%nat -> (w - 1 <= n)%nat -> (Z.of_nat s <= 2 ^ 48)%Z -> bars_ok h l c n ->
    accurate2 (s + 5) (2 * s + 6) (res_map (map fst) (@kdj f64 B (series h n) (series l n) (series c n) w s kf df))
      (res_map (map fst) (@kdj xr XR (series (exactly h) n) (series (exactly l) n) (series (exactly c) n) w s kf' df')).
  Proof.
    intros Hw Hs Hn Hz H. pose proof (stoch_close h l c n w s Hw Hs Hn Hz H) as A. unfold kdj.
    destruct (@stoch f64 B (series h n) (series l n) (series c n) w s) as [o|], (@stoch xr XR (series (exactly h) n) (series (exactly l) n) (series (exactly c) n) w s) as [p|]; cbn [bind res_map]; try easy.
    unfold accurate2 in *. rewrite !map_map. eapply f2_map; [exact A|]. intros [x1 x2] [y1 y2] Hx. exact Hx.
  Qed.

  (** *** The ultimate oscillator *)
  Lemma max2_exact a b : sane a -> sane b -> sane (@fmax f64 B a b) /\ @fmax xr XR (Fin (B2R a)) (Fin (B2R b)) = Fin (B2R (@fmax f64 B a b)) /\ B2R a <= B2R (@fmax f64 B a b) /\ B2R b <= B2R (@fmax f64 B a b).
  Proof.
    intros Ha Hb. destruct (fmax_fin m a b (proj1 Ha) (proj1 Hb)) as [F V]. split; [|rewrite x_max, V; repeat split; try apply Rmax_l; apply Rmax_r].
    split; [easy|]. rewrite V. unfold Rmax. destruct (Rle_dec _ _); [apply Hb|apply Ha].
  Qed.
  Lemma min2_exact a b : sane a -> sane b -> sane (@fmin f64 B a b) /\ @fmin xr XR (Fin (B2R a)) (Fin (B2R b)) = Fin (B2R (@fmin f64 B a b)) /\ B2R (@fmin f64 B a b) <= B2R a /\ B2R (@fmin f64 B a b) <= B2R b.
  Proof.
    intros Ha Hb. destruct (fmin_fin m a b (proj1 Ha) (proj1 Hb)) as [F V]. split; [|rewrite x_min, V; repeat split; try apply Rmin_l; apply Rmin_r].
    split; [easy|]. rewrite V. unfold Rmin. destruct (Rle_dec _ _); [apply Ha|apply Hb].
  Qed.
  Theorem ultimate_f64_accurate h l c n w1 w2 w3 : (0 < w3)%nat -> (0 < n)%nat -> (w1 <= w3)%nat -> (w2 <= w3)%nat -> (Z.of_nat w3 <= 2 ^ 48)%Z -> bars_ok h l c n ->
    accurate (2 * w3 + 10) (@ultimate f64 B (series h n) (series l n) (series c n) w1 w2 w3) (@ultimate xr XR (series (exactly h) n) (series (exactly l) n) (series (exactly c) n) w1 w2 w3).
  Proof.
    intros Hw Hn H1 H2 Hz H. destruct (@ultimate_values f64 B h l c n w1 w2 w3 Hw Hn H1 H2) as (o & E & A). destruct (@ultimate_values xr XR (exactly h) (exactly l) (exactly c) n w1 w2 w3 Hw Hn H1 H2) as (p & G & C).
    apply (accurate_aligned _ _ _ _ _ _ _ _ _ _ E A G C). intros i Hi. cbv zeta. rewrite !x_lit.
    set (bp := fun k => @fsub f64 B (c k) (@fmin f64 B (l k) (c (k - 1)%nat))). set (tr := fun k => @fsub f64 B (@fmax f64 B (h k) (c (k - 1)%nat)) (@fmin f64 B (l k) (c (k - 1)%nat))).
    set (BP := fun k => @fsub xr XR (exactly c k) (@fmin xr XR (exactly l k) (exactly c (k - 1)%nat))). set (TR := fun k => @fsub xr XR (@fmax xr XR (exactly h k) (exactly c (k - 1)%nat)) (@fmin xr XR (exactly l k) (exactly c (k - 1)%nat))).
    assert (NB : forall k, (k < n)%nat -> near 1 (-252) 201 (bp k) (BP k)).
    { intros k Hk. destruct (H k Hk) as (Sh & Sl & Sc & L1 & L2). destruct (H (k - 1)%nat ltac:(lia)) as (_ & _ & Sp & _). destruct (min2_exact (l k) (c (k - 1)%nat) Sl Sp) as (Sm & Em & U1 & U2).
      unfold bp, BP, exactly. rewrite Em, x_sub. apply near_sub; easy || lra. }
    assert (NT : forall k, (k < n)%nat -> near 1 (-252) 201 (tr k) (TR k)).
    { intros k Hk. destruct (H k Hk) as (Sh & Sl & Sc & L1 & L2). destruct (H (k - 1)%nat ltac:(lia)) as (_ & _ & Sp & _). destruct (min2_exact (l k) (c (k - 1)%nat) Sl Sp) as (Sm & Em & U1 & U2). destruct (max2_exact (h k) (c (k - 1)%nat) Sh Sp) as (SM & EM & V1 & V2).
      unfold tr, TR, exactly. rewrite Em, EM, x_sub. apply near_sub; easy || lra. }
    assert (FT : forall j, exists r, TR j = Fin r) by (intros j; unfold TR, exactly; rewrite x_max, x_min, x_sub; now eexists).
    assert (Q : forall w, (w <= w3)%nat -> near (2 * w3 + 3) (-501) 501 (@fdiv f64 B (fold_left (@fadd f64 B) (last_bars w bp i) (@flit f64 B 0 1)) (fold_left (@fadd f64 B) (last_bars w tr i) (@flit f64 B 0 1)))
      (@fdiv xr XR (fold_left (@fadd xr XR) (last_bars w BP i) (Fin 0)) (fold_left (@fadd xr XR) (last_bars w TR i) (Fin 0)))).
    { intros w Hw'. eapply near_weaken; [apply (near_quot m (1 + w) (1 + w) (-252) (-252) 249 249)| | |]; try small.
      - apply (near_bars m w _ _ _ 1 (-252) 201 48); try small; try apply b64_zero0. intros j J1 J2. apply NB. lia.
      - apply (near_bars m w _ _ _ 1 (-252) 201 48); try small; try apply b64_zero0. intros j J1 J2. apply NT. lia.
      - now apply bars_fin. }
    assert (N7 : near 2 0 22 (@fadd f64 B (@fadd f64 B (@flit f64 B 4 1) (@flit f64 B 2 1)) (@flit f64 B 1 1)) (xadd (xadd (Fin 4) (Fin 2)) (Fin 1))).
    { eapply near_weaken; [eapply near_add; [eapply near_add; [apply near_lit; lia|apply near_lit; lia|small|lia]|apply near_lit; lia|small|lia]| | |]; cbn; lia. }
    replace (2 * w3 + 10)%nat with (S (2 * w3 + 7 + 2)) by lia. eapply near_close; [small|].
    apply (near_quot m (2 * w3 + 7) 2 (-501) 0 543 22); [|exact N7|now eexists|small|lia|lia].
    eapply near_weaken; [apply (near_mul m 0 (2 * w3 + 6) 0 (-501) 20 523); [apply near_lit; lia| |small|lia|lia]|lia|lia|lia].
    eapply near_weaken; [eapply near_add; [eapply near_add; [eapply (near_mul m (2 * w3 + 3) 0 (-501) 0 501 20); [now apply Q|apply near_lit; lia|small|lia|lia]|eapply (near_mul m (2 * w3 + 3) 0 (-501) 0 501 20); [now apply Q|apply near_lit; lia|small|lia|lia]|small|lia]|now apply Q|small|lia]| | |]; try lia.
  Qed.

  (** *** Vortex and ulcer *)
  Theorem vortex_f64_accurate h l c n w : (0 < w)%nat -> (0 < n)%nat -> (Z.of_nat w <= 2 ^ 48)%Z -> (forall j, (j < n)%nat -> sane (h j) /\ sane (l j) /\ sane (c j) /\ B2R (l j) <= B2R (h j)) ->
    accurate2 (2 * w + 1) (2 * w + 1) (@vortex f64 B (series h n) (series l n) (series c n) w) (@vortex xr XR (series (exactly h) n) (series (exactly l) n) (series (exactly c) n) w).
  Proof.
    intros Hw Hn Hz H.
    assert (V : forall {F} {O : FOps F} (h l c : nat -> F), let up k := fabs (fsub (h k) (l (k - 1)%nat)) in let dn k := fabs (fsub (l k) (h (k - 1)%nat)) in
      exists o, vortex (series h n) (series l n) (series c n) w = Ok o /\ aligned o n w (fnan, fnan) (fun i =>
      let tot (f : nat -> F) := fold_left (fun t k => fadd t (f k)) (seq (i + 2 - w) (w - 1)) (f (i + 1 - w)%nat) in (fdiv (tot up) (tot (tr_at h l c)), fdiv (tot dn) (tot (tr_at h l c))))).
    { intros F O h' l' c' up dn. unfold vortex. rewrite bar_pairs_series by easy. cbn [bind]. rewrite map_map. rewrite rwindows_bars by easy. cbn [bind]. eexists. split; [reflexivity|].
      rewrite map_map. replace (1 + w - 1)%nat with w by lia. apply aligned_bars_ext; [lia|]. intros i Hi. cbv zeta. unfold vortex_win, last_bars. destruct w as [|w']; [lia|]. cbn [seq map].
      unfold vortex_bar at 2. rewrite fold_triple, !map_map, !fold_add_map. cbn [fst snd]. replace (i + 2 - S w')%nat with (S (i + 1 - S w')) by lia. replace (S w' - 1)%nat with w' by lia. reflexivity. }
    destruct (V f64 B h l c) as (o & E & A). destruct (V xr XR (exactly h) (exactly l) (exactly c)) as (p & G & C).
    apply (accurate2_aligned _ _ _ _ _ _ _ _ _ _ _ E A G C). intros i Hi. cbv zeta. cbn [fst snd].
    assert (Q : forall (f : nat -> f64) (g : nat -> xr), (forall k, (k < n)%nat -> near 1 (-252) 201 (f k) (g k)) ->
      close (2 * w + 1) (@fdiv f64 B (fold_left (fun t k => @fadd f64 B t (f k)) (seq (i + 2 - w) (w - 1)) (f (i + 1 - w)%nat)) (fold_left (fun t k => @fadd f64 B t (@tr_at f64 B h l c k)) (seq (i + 2 - w) (w - 1)) (@tr_at f64 B h l c (i + 1 - w)%nat)))
        (@fdiv xr XR (fold_left (fun t k => @fadd xr XR t (g k)) (seq (i + 2 - w) (w - 1)) (g (i + 1 - w)%nat)) (fold_left (fun t k => @fadd xr XR t (@tr_at xr XR (exactly h) (exactly l) (exactly c) k)) (seq (i + 2 - w) (w - 1)) (@tr_at xr XR (exactly h) (exactly l) (exactly c) (i + 1 - w)%nat)))).
    { intros f g N.
      assert (Nt : near (1 + (w - 1)) (-252) (201 + 48) (fold_left (fun t k => @fadd f64 B t (@tr_at f64 B h l c k)) (seq (i + 2 - w) (w - 1)) (@tr_at f64 B h l c (i + 1 - w)%nat)) (fold_left (fun t k => @fadd xr XR t (@tr_at xr XR (exactly h) (exactly l) (exactly c) k)) (seq (i + 2 - w) (w - 1)) (@tr_at xr XR (exactly h) (exactly l) (exactly c) (i + 1 - w)%nat))).
      { pose proof (near_sum_first m 1 (-252) 201 48 (seq (i + 2 - w) (w - 1)) (@tr_at f64 B h l c) (@tr_at xr XR (exactly h) (exactly l) (exactly c)) (@tr_at f64 B h l c (i + 1 - w)%nat) (@tr_at xr XR (exactly h) (exactly l) (exactly c) (i + 1 - w)%nat)) as S. rewrite seq_length in S. apply S; try small.
        - intros k Hk. apply in_seq in Hk. apply (near_tr m h l c n); easy || lia.
        - apply (near_tr m h l c n); easy || lia. }
      assert (Nn : near (1 + (w - 1)) (-252) (201 + 48) (fold_left (fun t k => @fadd f64 B t (f k)) (seq (i + 2 - w) (w - 1)) (f (i + 1 - w)%nat)) (fold_left (fun t k => @fadd xr XR t (g k)) (seq (i + 2 - w) (w - 1)) (g (i + 1 - w)%nat))).
      { pose proof (near_sum_first m 1 (-252) 201 48 (seq (i + 2 - w) (w - 1)) f g (f (i + 1 - w)%nat) (g (i + 1 - w)%nat)) as S. rewrite seq_length in S. apply S; try small.
        - intros k Hk. apply in_seq in Hk. apply N. lia.
        - apply N. lia. }
      assert (Ft : exists b, fold_left (fun t k => @fadd xr XR t (@tr_at xr XR (exactly h) (exactly l) (exactly c) k)) (seq (i + 2 - w) (w - 1)) (@tr_at xr XR (exactly h) (exactly l) (exactly c) (i + 1 - w)%nat) = Fin b).
      { assert (T : forall k, exists r, @tr_at xr XR (exactly h) (exactly l) (exactly c) k = Fin r) by (intros k; unfold tr_at, exactly; rewrite !x_sub, !x_abs, !x_max; now eexists).
        destruct (T (i + 1 - w)%nat) as [r0 ->]. apply sum_fin. intros k _. apply T. }
      replace (2 * w + 1)%nat with (S (1 + (w - 1) + (1 + (w - 1)))) by lia. eapply near_close; [small|]. eapply near_quot; [exact Nn|exact Nt|exact Ft|small|lia|lia]. }
    split; apply (Q (fun k => _) (fun k => _)); intros k Hk; unfold exactly; rewrite x_sub, x_abs; apply near_dist; apply H; lia.
  Qed.
  Theorem ulcer_f64_accurate d n w : (0 < w)%nat -> (w - 1 <= n)%nat -> (Z.of_nat w <= 2 ^ 48)%Z -> (forall k, (k < n)%nat -> sane (d k)) ->
    accurate (w + 9) (@ulcer f64 B (series d n) w) (@ulcer xr XR (series (exactly d) n) w).
  Proof.
    intros Hw Hn Hz H. unfold ulcer, series. rewrite !rwindows_bars by easy. cbn [bind]. unfold usub. rewrite (proj2 (Nat.leb_le 1 w)) by lia. cbn [bind plus].
    rewrite !map_map, !skipn_bars. cbn [plus]. replace (n + 1 - w)%nat with (n - (w - 1))%nat by lia. rewrite !combine_bars, !Nat.min_id, !map_map.
    match goal with |- accurate _ (bind (sma ?a _) _) (bind (sma ?b _) _) => assert (S1 : Forall2 (near 7 (-904) 842) a b) end.
    { apply f2_same. intros k Hk. apply in_seq in Hk. replace (0 + w - 1)%nat with (w - 1)%nat in Hk by lia. unfold ulcer_dd. destruct (max_exact m w d k ltac:(lia)) as (St & Et & Ut); [intros; apply H; lia|]. rewrite Et. set (top := @max_of f64 B (last_bars w d k)) in *.
      unfold exactly. rewrite x_lit, x_sub. unfold powi2. apply (near_square m 3 (-452) 421); [|small|lia|lia].
      apply (size_div m 2 0 (-252) (-200) 221 200); [|now apply size_in|small|lia|lia]. apply (size_mul m 0 1 0 (-252) 20 201); [apply size_near, near_lit; lia|apply size_sub; [apply H; lia|easy]|small|lia|lia]. }
    pose proof (near_sma m _ _ _ 48 w _ _ S1 Hw ltac:(small) ltac:(lia) ltac:(lia) ltac:(lia) ltac:(lia)) as S1'. clear S1.
    refine (r_bind _ (Forall2 (close (w + 9))) _ _ _ _ S1' _). intros a a' Ha. apply r_ok. apply f2_app; [|apply f2_repeat; now intros r].
    eapply f2_map; [exact Ha|]. intros x X Hx. cbv beta in Hx. replace (w + 9)%nat with (S (S (7 + w))) by lia. apply near_close with (-479)%Z 445%Z; [small|].
    apply near_sqrt; [|small|lia|lia]. eapply near_weaken; [exact Hx|lia|lia|lia].
  Qed.
End Fns.
