(** * LimitsB: the range of the prices limits deviations, ranges, bands and lines (C94). *)

From Coq Require Import Reals Lra Lia List.
From Verif Require Import Base Num XReal Spec RSpec Bars BaseFacts Smooth Volatility Momentum Trend Distribution.
From Verif Require Import XRFacts SmoothReal SmoothReal2 DistReal OrderStat MomReal VolatReal TrendReal Ranges Forget ForgetB Limits.
Import ListNotations.
Local Unset Implicit Arguments.
Local Open Scope R_scope.

(** ** Deviations: at most half the range *)
Lemma square_sums lo hi m l : Rsum (map (fun x => (x - m) ^ 2) l) + Rsum (map (fun x => (hi - x) * (x - lo)) l) = (hi + lo - 2 * m) * Rsum l + INR (length l) * (m ^ 2 - hi * lo).
Proof. induction l as [|x l IH]; cbn [map length]; rewrite ?Rsum_nil, ?Rsum_cons, ?S_INR; [cbn; lra|]. nra. Qed.
Lemma var_limits lo hi l : l <> [] -> (forall x, In x l -> lo <= x <= hi) -> var l <= ((hi - lo) / 2) ^ 2.
Proof.
  intros N B. assert (P : 0 < INR (length l)) by (apply lt_0_INR; destruct l; [easy|cbn; lia]).
  pose proof (square_sums lo hi (mean l) l) as S. assert (0 <= Rsum (map (fun x => (hi - x) * (x - lo)) l)).
  { apply Rsum_nonneg. intros y Hy. apply in_map_iff in Hy. destruct Hy as (x & <- & Hx). specialize (B x Hx). nra. }
  assert (M : Rsum l = mean l * INR (length l)) by (unfold mean; field; lra). rewrite M in S at 1.
  unfold var, mean at 1. rewrite map_length. apply Rmult_le_reg_r with (INR (length l)); [easy|]. unfold Rdiv at 1. rewrite Rmult_assoc, Rinv_l, Rmult_1_r by lra.
  set (m := mean l) in *. assert (0 <= (2 * m - hi - lo) ^ 2) by apply pow2_ge_0. nra.
Qed.
Lemma sd_limits lo hi l : l <> [] -> (forall x, In x l -> lo <= x <= hi) -> 0 <= sqrt (var l) <= (hi - lo) / 2.
Proof.
  intros N B. split; [apply sqrt_pos|]. pose proof (var_limits lo hi l N B) as V. apply sqrt_le_1 in V; [|apply var_nonneg|apply pow2_ge_0].
  rewrite sqrt_pow2 in V; [exact V|]. destruct l as [|x l]; [easy|]. specialize (B x ltac:(now left)). lra.
Qed.
Lemma abs_sums lo hi m l : lo <= m <= hi -> (forall x, In x l -> lo <= x <= hi) -> (hi - lo) * Rsum (map (fun x => Rabs (x - m)) l) <= (Rsum l - INR (length l) * lo) * (hi - m) + (INR (length l) * hi - Rsum l) * (m - lo).
Proof.
  intros M. induction l as [|x l IH]; intros B; cbn [map length]; rewrite ?Rsum_nil, ?Rsum_cons, ?S_INR; [cbn; lra|]. specialize (IH ltac:(intros; apply B; now right)). specialize (B x ltac:(now left)).
  assert ((hi - lo) * Rabs (x - m) <= (x - lo) * (hi - m) + (hi - x) * (m - lo)) by (unfold Rabs; destruct Rcase_abs; nra). nra.
Qed.
Lemma abs_dev_limits lo hi l : l <> [] -> (forall x, In x l -> lo <= x <= hi) -> 0 <= mean_abs_dev l <= (hi - lo) / 2.
Proof.
  intros N B. assert (P : 0 < INR (length l)) by (apply lt_0_INR; destruct l; [easy|cbn; lia]). pose proof (Bars.mean_bounds lo hi l N B) as MB.
  assert (Z : 0 <= Rsum (map (fun x => Rabs (x - mean l)) l)) by (apply Rsum_nonneg; intros y Hy; apply in_map_iff in Hy; destruct Hy as (x & <- & _); apply Rabs_pos).
  assert (M : Rsum l = mean l * INR (length l)) by (unfold mean; field; lra). pose proof (abs_sums lo hi (mean l) l MB B) as S. rewrite M in S. unfold mean_abs_dev, mean at 1 3. rewrite map_length.
  set (D := Rsum (map (fun x => Rabs (x - mean l)) l)) in *. set (m := mean l) in *. split; [apply Rdiv_nonneg; [easy|apply Rlt_le; easy]|].
  apply Rmult_le_reg_r with (INR (length l)); [easy|]. unfold Rdiv at 1. rewrite Rmult_assoc, Rinv_l, Rmult_1_r by lra.
  destruct (Req_dec lo hi) as [Q|Q].
  - assert (D = 0); [|subst hi; lra]. unfold D. replace (map (fun x => Rabs (x - m)) l) with (map (fun _ => 0) l); [clear; induction l; cbn [map]; rewrite ?Rsum_nil, ?Rsum_cons; lra|].
    apply map_ext_in. intros x Hx. specialize (B x Hx). replace (x - m) with 0 by lra. now rewrite Rabs_R0.
  - assert (0 < hi - lo) by lra. apply Rmult_le_reg_l with (hi - lo); [easy|]. assert (0 <= (2 * m - hi - lo) ^ 2) by apply pow2_ge_0. nra.
Qed.
Theorem std_dev_limits l w lo hi o : (0 < w)%nat -> (forall x, In x l -> lo <= x <= hi) -> std_dev (map Fin l) w = Ok o -> ranged o 0 ((hi - lo) / 2).
Proof.
  intros Hw B H. out H (std_dev_real l w Hw) A. apply (aligned_fin _ _ _ _ _ _ A). intros i Hi. apply sd_limits.
  - intros Z. apply (f_equal (@length R)) in Z. rewrite length_win in Z by lia. cbn in Z. lia.
  - intros x Hx. apply B. now apply In_win in Hx.
Qed.
Theorem mad_limits l w lo hi o : (0 < w)%nat -> (forall x, In x l -> lo <= x <= hi) -> mad (map Fin l) w = Ok o -> ranged o 0 ((hi - lo) / 2).
Proof.
  intros Hw B H. out H (mad_real l w Hw) A. apply (aligned_fin _ _ _ _ _ _ A). intros i Hi. apply abs_dev_limits.
  - intros Z. apply (f_equal (@length R)) in Z. rewrite length_win in Z by lia. cbn in Z. lia.
  - intros x Hx. apply B. now apply In_win in Hx.
Qed.

(** ** Bands *)
Lemma last_bars_in lo hi n w f i : (0 < w)%nat -> between lo hi n f -> (w - 1 <= i < n)%nat -> last_bars w f i <> [] /\ forall x, In x (last_bars w f i) -> lo <= x <= hi.
Proof. intros Hw B Hi. split; [now apply last_bars_nonempty|]. unfold last_bars. intros x Hx. apply in_map_iff in Hx. destruct Hx as (k & <- & Hk). apply in_seq in Hk. apply B. lia. Qed.
Lemma highest_in lo hi n w f i : (0 < w)%nat -> between lo hi n f -> (w - 1 <= i < n)%nat -> lo <= highest w f i <= hi.
Proof. intros Hw B Hi. destruct (last_bars_in lo hi n w f i Hw B Hi) as [N I]. apply I. apply (Rmax_list_spec _ N). Qed.
Lemma lowest_in lo hi n w f i : (0 < w)%nat -> between lo hi n f -> (w - 1 <= i < n)%nat -> lo <= lowest w f i <= hi.
Proof. intros Hw B Hi. destruct (last_bars_in lo hi n w f i Hw B Hi) as [N I]. apply I. apply (Rmin_list_spec _ N). Qed.
Lemma ewma_in lo hi n w f i : (0 < w)%nat -> between lo hi n f -> (w - 1 <= i < n)%nat -> lo <= ewma_from w 0 f i <= hi.
Proof. intros Hw B Hi. apply ewma_from_bounds; [easy|lia|]. intros. apply B. lia. Qed.
Theorem bbands_limits f n w dev lo hi o : (0 < w <= n)%nat -> 0 <= unwrap_or dev 2 -> between lo hi n f -> bbands (xseries f n) w (option_map Fin dev) None = Ok o ->
  let r := unwrap_or dev 2 * ((hi - lo) / 2) in
  ranged (map (fun '(u, _, _) => u) o) lo (hi + r) /\ ranged (map (fun '(_, m, _) => m) o) lo hi /\ ranged (map (fun '(_, _, b) => b) o) (lo - r) hi.
Proof.
  intros Hw Hd B H r. out H (bbands_real f n w dev Hw) A. set (d := unwrap_or dev 2) in *.
  assert (EB := fun i Hi => ewma_in lo hi n w f i ltac:(lia) B Hi).
  assert (SB : forall i, (w - 1 <= i < n)%nat -> 0 <= d * sqrt (var (last_bars w f i)) <= r).
  { intros i Hi. destruct (last_bars_in lo hi n w f i ltac:(lia) B Hi) as [N I]. pose proof (sd_limits lo hi _ N I). unfold r. split; [apply Rmult_le_pos; lra|apply Rmult_le_compat_l; lra]. }
  split; [|split]; (eapply aligned_fin; [refine (aligned_of _ _ _ _ _ _ A)|]); cbv beta; intros i Hi; specialize (EB i Hi); specialize (SB i Hi); lra.
Qed.
Lemma range_in lo hi n h l c k : between lo hi n h -> between lo hi n l -> between lo hi n c -> (1 <= k < n)%nat -> l k <= h k -> 0 <= true_range_of h l c k <= hi - lo.
Proof.
  intros Bh Bl Bc Hk O. specialize (Bh k ltac:(lia)). specialize (Bl k ltac:(lia)). specialize (Bc (k - 1)%nat ltac:(lia)). unfold true_range_of, Rmax, Rmin. repeat destruct Rle_dec; lra.
Qed.
Lemma atr_in lo hi n h l c w i : (0 < w)%nat -> (w <= i < n)%nat -> between lo hi n h -> between lo hi n l -> between lo hi n c -> (forall k, (k < n)%nat -> l k <= h k) -> 0 <= wilder_from w 1 (true_range_of h l c) i <= hi - lo.
Proof. intros Hw Hi Bh Bl Bc O. apply wilder_from_bounds; [easy|lia|]. intros j Hj. apply range_in with n; try easy; [lia|apply O; lia]. Qed.
Theorem atr_limits h l c n w lo hi o : (0 < w < n)%nat -> between lo hi n h -> between lo hi n l -> between lo hi n c -> (forall k, (k < n)%nat -> l k <= h k) ->
  atr (xseries h n) (xseries l n) (xseries c n) w = Ok o -> ranged o 0 (hi - lo).
Proof. intros Hw Bh Bl Bc O H. out H (atr_real h l c n w Hw O) A. apply (aligned_fin _ _ _ _ _ _ A). intros i Hi. apply atr_in with n; easy || lia. Qed.
Theorem keltner_limits h l c n w lo hi o : (0 < w < n)%nat -> between lo hi n h -> between lo hi n l -> between lo hi n c -> (forall k, (k < n)%nat -> l k <= h k) ->
  keltner (xseries h n) (xseries l n) (xseries c n) w = Ok o ->
  ranged (map (fun '(m, _, _) => m) o) lo hi /\ ranged (map (fun '(_, u, _) => u) o) lo (hi + 2 * (hi - lo)) /\ ranged (map (fun '(_, _, b) => b) o) (lo - 2 * (hi - lo)) hi.
Proof.
  intros Hw Bh Bl Bc O H. out H (keltner_real h l c n w Hw O) A. cbv zeta in A. destruct A as (A1 & A2 & A3).
  assert (EB := fun i Hi => ewma_in lo hi n w c i ltac:(lia) Bc Hi). assert (AB := fun i Hi => atr_in lo hi n h l c w i ltac:(lia) Hi Bh Bl Bc O).
  split; [|split]; [apply (aligned_fin _ _ _ _ _ _ A1)|apply (aligned_fin _ _ _ _ _ _ A2)|apply (aligned_fin _ _ _ _ _ _ A3)]; intros i Hi; specialize (EB i ltac:(lia)); [lra| |]; specialize (AB i ltac:(lia)); lra.
Qed.
Theorem chandelier_limits h l c n w mult lo hi o : (0 < w < n)%nat -> 0 <= unwrap_or mult 3 -> between lo hi n h -> between lo hi n l -> between lo hi n c -> (forall k, (k < n)%nat -> l k <= h k) ->
  chandelier (xseries h n) (xseries l n) (xseries c n) w (option_map Fin mult) = Ok o -> let r := unwrap_or mult 3 * (hi - lo) in ranged (map fst o) (lo - r) hi /\ ranged (map snd o) lo (hi + r).
Proof.
  intros Hw Hm Bh Bl Bc O H r. out H (chandelier_real h l c n w mult Hw O) A. set (m := unwrap_or mult 3) in *.
  assert (AB := fun i Hi => atr_in lo hi n h l c w i ltac:(lia) Hi Bh Bl Bc O).
  assert (DB : forall i, (w <= i < n)%nat -> 0 <= m * wilder_from w 1 (true_range_of h l c) i <= r) by (intros i Hi; specialize (AB i Hi); unfold r; split; [apply Rmult_le_pos; lra|apply Rmult_le_compat_l; lra]).
  split; (eapply aligned_fin; [first [exact (aligned_of fst _ _ _ _ _ A)|exact (aligned_of snd _ _ _ _ _ A)]|]); cbv beta; intros i Hi; specialize (DB i Hi);
    [pose proof (highest_in lo hi n w h i ltac:(lia) Bh ltac:(lia))|pose proof (lowest_in lo hi n w l i ltac:(lia) Bl ltac:(lia))]; lra.
Qed.
(** The long stop never rises above the highest price (or zero), the short stop never
    falls below the lowest. *)
Theorem cks_limits h l c n p q mult lo hi o : (0 < p < n)%nat -> (0 < q)%nat -> 0 <= unwrap_or mult 1 -> between lo hi n h -> between lo hi n l -> between lo hi n c -> lo <= max_f64 -> (forall k, (k < n)%nat -> l k <= h k) ->
  cks (xseries h n) (xseries l n) (xseries c n) p q (option_map Fin mult) = Ok o -> ranged (map fst o) 0 (Rmax 0 hi) /\ ranged (map snd o) lo (hi + unwrap_or mult 1 * (hi - lo)).
Proof.
  intros Hp Hq Hm Bh Bl Bc Lm O H. out H (cks_real h l c n p q mult Hp Hq O) A. set (m := unwrap_or mult 1) in *.
  assert (AB := fun i Hi => atr_in lo hi n h l c p i ltac:(lia) Hi Bh Bl Bc O).
  assert (DB : forall i, (p <= i < n)%nat -> 0 <= m * wilder_from p 1 (true_range_of h l c) i <= m * (hi - lo)) by (intros i Hi; specialize (AB i Hi); split; [apply Rmult_le_pos; lra|apply Rmult_le_compat_l; lra]).
  split.
  - eapply aligned_fin; [exact (aligned_of fst _ _ _ _ _ A)|]. intros i Hi. split; [apply Rmax_l|]. apply Rmax_lub; [apply Rmax_l|]. apply Rle_trans with hi; [|apply Rmax_r].
    unfold highest at 1. assert (N := last_bars_nonempty q (fun k => highest p h k - m * wilder_from p 1 (true_range_of h l c) k) i Hq). pose proof (proj1 (Rmax_list_spec _ N)) as I.
    unfold last_bars in I at 2. apply in_map_iff in I. destruct I as (k & Ek & Hk). rewrite <- Ek. apply in_seq in Hk. specialize (DB k ltac:(lia)). pose proof (highest_in lo hi n p h k ltac:(lia) Bh ltac:(lia)). lra.
  - eapply aligned_fin; [exact (aligned_of snd _ _ _ _ _ A)|]. intros i Hi.
    assert (N := last_bars_nonempty q (fun k => lowest p l k + m * wilder_from p 1 (true_range_of h l c) k) i Hq). pose proof (proj1 (Rmin_list_spec _ N)) as I.
    unfold last_bars in I at 2. apply in_map_iff in I. destruct I as (k & Ek & Hk). unfold lowest at 1 3. rewrite <- Ek. apply in_seq in Hk. specialize (DB k ltac:(lia)). pose proof (lowest_in lo hi n p l k ltac:(lia) Bl ltac:(lia)).
    split; [apply Rmin_glb; lra|]. eapply Rle_trans; [apply Rmin_r|]. lra.
Qed.

(** ** Lines *)
Theorem donchian_limits h l n w lo hi o : (0 < w)%nat -> between lo hi n h -> between lo hi n l -> donchian (xseries h n) (xseries l n) w = Ok o ->
  ranged (map (fun '(u, _, _) => u) o) lo hi /\ ranged (map (fun '(_, m, _) => m) o) lo hi /\ ranged (map (fun '(_, _, b) => b) o) lo hi.
Proof.
  intros Hw Bh Bl H. out H (donchian_real h l n w Hw) A.
  split; [|split]; (eapply aligned_fin; [refine (aligned_of _ _ _ _ _ _ A)|]); cbv beta; intros i Hi;
    pose proof (highest_in lo hi n w h i ltac:(lia) Bh ltac:(lia)); pose proof (lowest_in lo hi n w l i ltac:(lia) Bl ltac:(lia)); lra.
Qed.
Lemma ranged_line {A} (g : A -> xr) (f : nat -> A) n lo hi : (forall i, (i < n)%nat -> g (f i) = NaN \/ exists r, g (f i) = Fin r /\ lo <= r <= hi) -> ranged (map g (series f n)) lo hi.
Proof.
  intros H i x E. unfold series in E. rewrite map_map, nth_error_map' in E. destruct (nth_error (seq 0 n) i) as [k|] eqn:K; [|easy]. injection E as <-.
  apply nth_error_In, in_seq in K. apply H. lia.
Qed.
Lemma late_in lo hi d n w off i : (0 < w)%nat -> between lo hi n d -> late_line d n w off i = NaN \/ exists r, late_line d n w off i = Fin r /\ lo <= r <= hi.
Proof.
  intros Hw B. unfold late_line. destruct ((w + off - 1 <=? i) && (i <? n + off))%nat%bool eqn:Q; [|now left]. apply andb_prop in Q. destruct Q as [Q1 Q2].
  apply Nat.leb_le in Q1. apply Nat.ltb_lt in Q2. right. eexists. split; [reflexivity|]. apply wilder_from_bounds; [easy|lia|]. intros j Hj. apply B. lia.
Qed.
Theorem alligator_limits d n jw jo tw to lw lo' lo hi o : (0 < jw <= n)%nat -> (0 < tw <= n)%nat -> (0 < lw <= n)%nat -> between lo hi n d -> alligator (xseries d n) jw jo tw to lw lo' = Ok o ->
  ranged (map (fun '(x, _, _) => x) o) lo hi /\ ranged (map (fun '(_, x, _) => x) o) lo hi /\ ranged (map (fun '(_, _, x) => x) o) lo hi.
Proof.
  intros Hj Ht Hl B H. rewrite alligator_real in H by easy. apply Warm.Ok_inj in H. subst o. split; [|split]; apply ranged_line; intros i Hi; apply late_in; lia || easy.
Qed.
Theorem gator_limits d n jw jo tw to lw lo' lo hi o : (0 < jw <= n)%nat -> (0 < tw <= n)%nat -> (0 < lw <= n)%nat -> between lo hi n d -> gator (xseries d n) jw jo tw to lw lo' = Ok o ->
  ranged (map fst o) 0 (hi - lo) /\ ranged (map snd o) 0 (hi - lo).
Proof.
  intros Hj Ht Hl B H. rewrite gator_real in H by easy. apply Warm.Ok_inj in H. subst o.
  split; apply ranged_line; intros i Hi; cbn [fst snd].
  - destruct (late_in lo hi d n jw jo i ltac:(lia) B) as [-> | (r & -> & R1)]; [now left|]. destruct (late_in lo hi d n tw to i ltac:(lia) B) as [-> | (s & -> & R2)]; [now left|].
    right. exists (Rabs (r - s)). split; [reflexivity|]. unfold Rabs. destruct Rcase_abs; lra.
  - destruct (late_in lo hi d n tw to i ltac:(lia) B) as [-> | (r & -> & R1)]; [now left|]. destruct (late_in lo hi d n lw lo' i ltac:(lia) B) as [-> | (s & -> & R2)]; [now left|].
    right. exists (Rabs (r - s)). split; [reflexivity|]. unfold Rabs. destruct Rcase_abs; lra.
Qed.
Lemma mid_in lo hi h l n w i : (0 < w)%nat -> between lo hi n h -> between lo hi n l -> mid_line h l n w i = NaN \/ exists r, mid_line h l n w i = Fin r /\ lo <= r <= hi.
Proof.
  intros Hw Bh Bl. unfold mid_line. destruct ((w - 1 <=? i) && (i <? n))%nat%bool eqn:Q; [|now left]. apply andb_prop in Q. destruct Q as [Q1 Q2].
  apply Nat.leb_le in Q1. apply Nat.ltb_lt in Q2. right. eexists. split; [reflexivity|].
  pose proof (highest_in lo hi n w h i Hw Bh ltac:(lia)). pose proof (lowest_in lo hi n w l i Hw Bl ltac:(lia)). lra.
Qed.
Theorem ichimoku_limits h l c n cw bw lw lag lo hi o : (0 < cw <= n)%nat -> (0 < bw <= n)%nat -> (0 < lw <= n)%nat -> (lag <= n)%nat -> between lo hi n h -> between lo hi n l -> between lo hi n c ->
  ichimoku (xseries h n) (xseries l n) (xseries c n) cw bw lw lag = Ok o ->
  ranged (map (fun '(x, _, _, _, _) => x) o) lo hi /\ ranged (map (fun '(_, x, _, _, _) => x) o) lo hi /\ ranged (map (fun '(_, _, x, _, _) => x) o) lo hi /\
  ranged (map (fun '(_, _, _, x, _) => x) o) lo hi /\ ranged (map (fun '(_, _, _, _, x) => x) o) lo hi.
Proof.
  intros Hc Hb Hl Hg Bh Bl Bc H. rewrite ichimoku_real in H by easy. apply Warm.Ok_inj in H. subst o.
  repeat split; apply ranged_line; intros i Hi; cbv beta iota.
  - apply mid_in; lia || easy.
  - apply mid_in; lia || easy.
  - destruct (bw <=? i)%nat; [|now left]. destruct (mid_in lo hi h l n cw (i - bw) ltac:(lia) Bh Bl) as [-> | (r & -> & R1)]; [now left|]. destruct (mid_in lo hi h l n bw (i - bw) ltac:(lia) Bh Bl) as [-> | (s & -> & R2)]; [now left|].
    right. exists ((r + s) / 2). split; [|lra]. cbn [fadd XR xadd]. now rewrite x_div by lra.
  - destruct (bw <=? i)%nat; [|now left]. apply mid_in; lia || easy.
  - destruct (i + lag <? n)%nat eqn:Q; [|now left]. apply Nat.ltb_lt in Q. right. eexists. split; [reflexivity|]. apply Bc. lia.
Qed.

(** ** Indicators built on rsi *)
Theorem derivative_limits f n w1 w2 s o : (0 < w1)%nat -> (0 < w2)%nat -> (0 < s)%nat -> (2 * w1 + w2 + s <= n + 2)%nat -> (2 * w1 + w2 <= n + 1)%nat ->
  (forall i, (w1 <= i < n)%nat -> moved w1 f i) -> derivative (xseries f n) w1 w2 s = Ok o -> ranged o (-100) 100.
Proof.
  intros H1 H2 Hs Hn Hn2 M H. out H (derivative_real f n w1 w2 s H1 H2 Hs Hn Hn2 M) A. apply (aligned_fin _ _ _ _ _ _ A). intros i Hi. cbv zeta.
  set (e := ewma_from w2 (2 * w1 - 1) (ewma_from w1 w1 (rsi_of w1 f))) in *.
  assert (EB : forall j, (2 * w1 + w2 - 2 <= j < n)%nat -> 0 <= e j <= 100).
  { intros j Hj. apply ewma_from_bounds; [easy|lia|]. intros k Hk. apply ewma_from_bounds; [easy|lia|]. intros q Hq. apply (rsi_range f w1 q H1). apply M. lia. }
  pose proof (EB i ltac:(lia)). assert (0 <= mean (last_bars s e i) <= 100) by (apply last_bars_bounds; [lia|]; intros; apply EB; lia). lra.
Qed.
Theorem qqe_limits f n w s o : (0 < w)%nat -> (0 < s)%nat -> (3 * w + s <= n + 1)%nat -> (forall i, (w <= i < n)%nat -> moved w f i) -> qqe (xseries f n) w s = Ok o -> ranged o (- 423.6) 523.6.
Proof.
  intros Hw Hs Hn M H. pose proof (qqe_real f n w s Hw Hs Hn M) as Q. cbv zeta in Q. destruct Q as (o' & t & E & A & T0 & TS). rewrite E in H. apply Warm.Ok_inj in H. subst o'.
  set (m := ewma_from s w (rsi_of w f)) in *. set (a := wilder_from w (w + s) (fun i => Rabs (m i - m (i - 1)%nat))) in *.
  assert (MB : forall j, (w + s - 1 <= j < n)%nat -> 0 <= m j <= 100) by (intros j Hj; apply ewma_from_bounds; [easy|lia|]; intros q Hq; apply (rsi_range f w q Hw); apply M; lia).
  assert (AB : forall j, (2 * w + s - 1 <= j < n)%nat -> 0 <= a j <= 100).
  { intros j Hj. apply wilder_from_bounds; [easy|lia|]. intros k Hk. pose proof (MB k ltac:(lia)). pose proof (MB (k - 1)%nat ltac:(lia)). unfold Rabs. destruct Rcase_abs; lra. }
  assert (DB : forall j, (3 * w + s - 1 <= j < n)%nat -> 0 <= wilder_from w (2 * w + s - 1) a j <= 100) by (intros j Hj; apply wilder_from_bounds; [easy|lia|]; intros k Hk; apply AB; lia).
  assert (TB : forall k, (3 * w + s - 1 + k <= n)%nat -> - 423.6 <= t (3 * w + s - 1 + k)%nat <= 523.6).
  { induction k as [|k IH]; intros Hk; [rewrite Nat.add_0_r, T0; lra|]. specialize (IH ltac:(lia)). replace (3 * w + s - 1 + S k)%nat with (S (3 * w + s - 1 + k)) by lia. rewrite TS by lia. set (i := (3 * w + s - 1 + k)%nat) in *.
    pose proof (MB i ltac:(lia)). pose proof (DB i ltac:(lia)). unfold Rmax, Rmin. repeat destruct (Rltb _ _); repeat destruct Rle_dec; lra. }
  apply (aligned_fin _ _ _ _ _ _ A). intros i Hi. replace (S i) with (3 * w + s - 1 + (S i - (3 * w + s - 1)))%nat by lia. apply TB. lia.
Qed.

(** ** Drawdown and trend bands *)
Theorem ulcer_limits d n w lo hi o : (0 < w)%nat -> (2 * (w - 1) <= n)%nat -> 0 < lo -> between lo hi n d -> ulcer (xseries d n) w = Ok o -> ranged o 0 (- percent hi lo).
Proof.
  intros Hw Hn L0 B H. out H (ulcer_real d n w Hw Hn ltac:(intros k Hk; specialize (B k Hk); lra)) A. apply (aligned_fin _ _ _ _ _ _ A). intros i Hi. split; [apply sqrt_pos|].
  assert (LH : lo <= hi) by (specialize (B i ltac:(lia)); lra). pose proof (percent_signs lo hi L0 LH) as S.
  rewrite <- (sqrt_pow2 (- percent hi lo)) by lra. apply sqrt_le_1_alt. apply (last_bars_bounds w _ i 0); [lia|]. intros k Hk1 Hk2. split; [apply pow2_ge_0|].
  pose proof (highest_in lo hi n w d k Hw B ltac:(lia)) as HB. pose proof (B k ltac:(lia)) as DB.
  assert (DH : d k <= highest w d k).
  { assert (N := last_bars_nonempty w d k Hw). apply (Rmax_list_spec _ N). unfold last_bars. apply in_map. apply in_seq. lia. }
  pose proof (percent_limits lo hi (highest w d k) (d k) L0 HB DB) as P. replace (100 * (d k - highest w d k) / highest w d k) with (percent (highest w d k) (d k)) by (unfold percent, Rdiv; ring).
  assert (percent (highest w d k) (d k) <= 0).
  { unfold percent. assert (0 < / highest w d k) by (apply Rinv_0_lt_compat; lra). unfold Rdiv. nra. }
  assert (Q : forall x y : R, 0 <= x <= y -> x ^ 2 <= y ^ 2) by (intros; nra). replace (percent (highest w d k) (d k) ^ 2) with ((- percent (highest w d k) (d k)) ^ 2) by ring. apply Q. lra.
Qed.
Theorem supertrend_limits h l c n w m lo hi o : (0 < w < n)%nat -> 0 <= m -> between lo hi n h -> between lo hi n l -> between lo hi n c -> (forall k, (k < n)%nat -> l k <= h k) ->
  supertrend (xseries h n) (xseries l n) (xseries c n) w (Fin m) = Ok o -> ranged o (lo - m * (hi - lo)) (hi + m * (hi - lo)).
Proof.
  intros Hw Hm Bh Bl Bc O H. pose proof (supertrend_real h l c n w m Hw O) as Q. cbv zeta in Q. destruct Q as (o' & dn & up & ri & E & A & D0 & U0 & R0 & St). rewrite E in H. apply Warm.Ok_inj in H. subst o'.
  assert (DB : forall i, (w <= i < n)%nat -> 0 <= m * wilder_from w 1 (true_range_of h l c) i <= m * (hi - lo)).
  { intros i Hi. pose proof (atr_in lo hi n h l c w i ltac:(lia) Hi Bh Bl Bc O). split; [apply Rmult_le_pos; lra|apply Rmult_le_compat_l; lra]. }
  assert (TB : forall k, (w + k < n)%nat -> lo - m * (hi - lo) <= dn (w + k)%nat <= hi + m * (hi - lo) /\ lo - m * (hi - lo) <= up (w + k)%nat <= hi + m * (hi - lo)).
  { induction k as [|k IH]; intros Hk.
    - rewrite Nat.add_0_r, D0, U0. specialize (DB w ltac:(lia)). specialize (Bh w ltac:(lia)). specialize (Bl w ltac:(lia)). lra.
    - specialize (IH ltac:(lia)). rewrite Nat.add_succ_r. destruct (St (w + k)%nat ltac:(lia)) as (-> & -> & _). specialize (DB (S (w + k)) ltac:(lia)). specialize (Bh (S (w + k)) ltac:(lia)). specialize (Bl (S (w + k)) ltac:(lia)).
      split; destruct (Rltb _ _); unfold Rmax, Rmin; try destruct Rle_dec; lra. }
  apply (aligned_fin _ _ _ _ _ _ A). intros i Hi. destruct (TB (i - w)%nat ltac:(lia)) as [T1 T2]. replace (w + (i - w))%nat with i in T1, T2 by lia. destruct (ri i); assumption.
Qed.
