(** * SuperVol: volume traded in two places.

    In exact arithmetic the cumulative volume indicators of the whole volume are the sum
    of the indicators of its two parts, and the volume-weighted ratios of the whole lie
    between the ratios of the two parts. *)

From Coq Require Import Reals Lra Lia Sorted.
From Verif Require Import Base Num XReal BaseFacts RSpec XRFacts SmoothReal SmoothReal2 SmoothVals ShiftRel.
From Verif Require Import Spec Bars MomReal Adaptive ShiftVals Smooth Volatility Trend Momentum Volume VolumeReal Super.
Local Unset Implicit Arguments.
Local Open Scope nat_scope.

(** ** Specification *)

(** Every price is a number. *)
Definition finite (l : list xr) : Prop := Forall (fun x => exists r, x = Fin r) l.
(** Every price is a number other than 0. *)
Definition nonzero (l : list xr) : Prop := Forall (fun x => exists r, x = Fin r /\ r <> 0%R) l.
(** The high, the low and the close of every bar are numbers, the close within the range;
    a bar with no range is allowed. *)
Definition bar (p : xr * xr * xr) : Prop := exists h l c, p = (Fin h, Fin l, Fin c) /\ (l <= c <= h)%R.
Definition proper (high low close : list xr) : Prop := Forall bar (zip3 high low close).

(** What the calls [r], [s] return for the two parts, and [t] for the whole: from bar
    [k] on, the value for the whole lies between the values for the parts. *)
Definition mixes (n k : nat) (r s t : result (list xr)) : Prop :=
  exists a b c, r = Ok a /\ s = Ok b /\ t = Ok c /\
  forall i, (k <= i < n)%nat -> exists x y z,
    nth_error a i = Some (Fin x) /\ nth_error b i = Some (Fin y) /\ nth_error c i = Some (Fin z) /\
    (Rmin x y <= z <= Rmax x y)%R.

(** ** Sums *)

Lemma Forall_skipn {A} (P : A -> Prop) k l : Forall P l -> Forall P (skipn k l).
Proof. intros H. revert l H. induction k; intros l H; [easy|]. destruct l; [constructor|]. inversion H. cbn. auto. Qed.
Lemma Forall_firstn {A} (P : A -> Prop) k l : Forall P l -> Forall P (firstn k l).
Proof. intros H. revert l H. induction k; intros l H; [constructor|]. destruct l; [constructor|]. inversion H. cbn. constructor; auto. Qed.
Lemma Forall_combine_l {A B} (P : A -> Prop) (l : list A) (m : list B) : Forall P l -> Forall (fun p => P (fst p)) (combine l m).
Proof. intros H. revert m. induction H; intros [|y m]; cbn; constructor; auto. Qed.
Lemma Forall_combine_r {A B} (P : B -> Prop) (l : list A) (m : list B) : Forall P m -> Forall (fun p => P (snd p)) (combine l m).
Proof. intros H. revert l. induction H; intros [|? ?]; cbn; constructor; auto. Qed.
Lemma combine_skipn' {A B} k (l : list A) (m : list B) : combine (skipn k l) (skipn k m) = skipn k (combine l m).
Proof. revert l m. induction k; intros; [easy|]. destruct l, m; cbn; [easy|easy|now rewrite combine_nil|apply IHk]. Qed.

(** The three runs walk over the same prices [p] with [P p]. *)
Definition same {D} (P : D -> Prop) (x y z : D) : Prop := x = y /\ x = z /\ P x.

Lemma steps3_3' close a b c : S3 a b c -> finite close ->
  rel3 (F3 (pr3 (same (fun p => exists x y, p = (Fin x, Fin y))) sum3)) (steps3 close a) (steps3 close b) (steps3 close c).
Proof.
  intros H Hc. unfold steps3. apply same3. intros n1 _. apply same3. intros p Ep. apply same3. intros q Eq.
  eapply bind3; [eapply (f3_slice_from sum3); eassumption|]. intros. apply ok3. unfold zip3, same. apply f3_combine_l; [easy|].
  unfold slice_to, slice_from in Ep, Eq. destruct (_ <=? _) in Ep; [|easy]. destruct (_ <=? _) in Eq; [|easy]. injection Ep as <-. injection Eq as <-.
  assert (F1 : Forall (fun p => exists r, fst p = Fin r) (combine (firstn n1 close) (skipn 1 close)))
    by (apply (Forall_combine_l (fun x => exists r, x = Fin r)); now apply Forall_firstn).
  assert (F2 : Forall (fun p => exists r, snd p = Fin r) (combine (firstn n1 close) (skipn 1 close)))
    by (apply (Forall_combine_r (fun x => exists r, x = Fin r)); now apply Forall_skipn).
  rewrite Forall_forall in *. intros [x y] I. destruct (F1 _ I) as [u U], (F2 _ I) as [v V]. cbn in U, V. subst. now exists u, v.
Qed.
Lemma elder_force_3 close a b c w : finite close -> S3 a b c -> R3 (elder_force close a w) (elder_force close b w) (elder_force close c w).
Proof.
  intros Hc H. unfold elder_force. eapply bind3; [now apply steps3_3'|]. intros x y z X.
  eapply bind3; [apply ewma_3|].
  - eapply f3_map; [|exact X]. intros [p v] [p' v'] [p'' v''] [(E1 & E2 & (q & r & E)) V]. cbn in E1, E2, E, V. subst. now apply s3_mul_l.
  - intros. apply ok3. now constructor.
Qed.
Lemma windows_finite (P : xr -> Prop) w l : Forall P l -> Forall (Forall P) (windows w l).
Proof.
  intros H. unfold windows. apply Forall_forall. intros v I. apply in_map_iff in I as (i & <- & _). now apply Forall_firstn, Forall_skipn.
Qed.
Lemma vpt_3 close a b c : nonzero close -> S3 a b c -> R3 (vpt close a) (vpt close b) (vpt close c).
Proof.
  intros Hc H. unfold vpt. eapply bind3; [eapply (f3_slice_from sum3); eassumption|]. intros x y z X. apply ok3. constructor; [exact s3_nan|].
  eapply f3_scan with (U := sum3); [|eapply (f3_combine_l sum3 (fun v => exists r s, r <> 0%R /\ at_ v 0 = Fin r /\ at_ v 1 = Fin s)); [exact X|]|rewrite x_lit; exact s3_zero].
  - intros s s' s'' [v u] [v' u'] [v'' u''] S [(E1 & E2 & (r & t & R0 & E & E')) V]. cbn [fst snd] in E1, E2, E, E', V. subst v' v''. unfold vpt_step. rewrite E, E'.
    assert (K : sum3 (fadd s (fdiv (fmul u (fsub (Fin t) (Fin r))) (Fin r))) (fadd s' (fdiv (fmul u' (fsub (Fin t) (Fin r))) (Fin r)))
      (fadd s'' (fdiv (fmul u'' (fsub (Fin t) (Fin r))) (Fin r)))).
    { apply s3_add; [easy|]. apply s3_div; [|now apply s3_mul_r]. intros K. now injection K. }
    split; easy.
  - pose proof (windows_finite _ 2 _ Hc) as F. rewrite Forall_forall in *. intros v I. specialize (F v I).
    assert (L : length v = 2). { unfold windows in I. apply in_map_iff in I as (i & <- & J). apply in_seq in J. rewrite firstn_length, skipn_length. lia. }
    destruct v as [|p [|q [|]]]; cbn in L; try lia. inversion F as [|? ? (r & -> & R0) F']. inversion F' as [|? ? (t & -> & _)]. subst.
    exists r, t. easy.
Qed.

Lemma tail4_3 (P : xr * xr * xr -> Prop) h l cl a b c : Forall P (zip3 h l cl) -> S3 a b c ->
  rel3 (F3 (pr3 (same P) sum3)) (tail4 h l cl a) (tail4 h l cl b) (tail4 h l cl c).
Proof.
  intros HP H. unfold tail4. apply same3. intros h' Eh. apply same3. intros l' El. apply same3. intros c' Ec.
  eapply bind3; [eapply (f3_slice_from sum3); eassumption|]. intros. apply ok3. unfold zip4, same. apply f3_combine_l; [easy|].
  unfold slice_from in Eh, El, Ec. destruct (_ <=? _) in Eh; [|easy]. destruct (_ <=? _) in El; [|easy]. destruct (_ <=? _) in Ec; [|easy].
  assert (I : forall (x y : list xr), Ok x = Ok y -> y = x) by (intros ? ? [= E]; easy).
  apply I in Eh, El, Ec. subst. unfold zip3. rewrite !combine_skipn'. now apply Forall_skipn.
Qed.

Lemma quot_nan_factor x y : (y = 0 -> x = 0)%R -> factor (fdiv (Fin x) (Fin y)).
Proof.
  intros H t. cbn. unfold Req. destruct (Req_EM_T y 0) as [E|]; [|easy]. rewrite (H E). destruct (Req_EM_T 0 0); [easy|lra].
Qed.
Lemma ad_plain_3 h l cl a b c : proper h l cl -> S3 a b c ->
  F3 sum3 (scan ad_step (flit 0 1) (zip4 h l cl a)) (scan ad_step (flit 0 1) (zip4 h l cl b)) (scan ad_step (flit 0 1) (zip4 h l cl c)).
Proof.
  intros W H. eapply f3_scan with (U := sum3); [|unfold zip4; eapply (f3_combine_l sum3 bar); [exact H|exact W]|rewrite x_lit; exact s3_zero].
  intros s s' s'' [p v] [p' v'] [p'' v''] S [(E1 & E2 & (x & y & z & E & K)) V]. cbn in E1, E2, E, V. subst. unfold ad_step.
  set (m := fdiv _ _). assert (Fm : factor m) by (apply quot_nan_factor; lra). clearbody m.
  split; cbn [fst snd]; (apply s3_add; [easy|now apply s3_mul_l]).
Qed.
Lemma ad_alt_3 c0 x y z : factor c0 -> F3 (pr3 (same bar) sum3) x y z ->
  F3 sum3 (scan ad_alt_step (c0, flit 0 1) x) (scan ad_alt_step (c0, flit 0 1) y) (scan ad_alt_step (c0, flit 0 1) z).
Proof.
  intros F0 X.
  eapply f3_scan with (U := pr3 (same factor) sum3); [|exact X|split; cbn [fst snd]; [easy|rewrite x_lit; exact s3_zero]].
  intros [p s] [p' s'] [p'' s''] [q v] [q' v'] [q'' v''] [(E1 & E2 & Fp) S] [(G1 & G2 & (u & t & r & G & _)) V]. cbn in E1, E2, S, G1, G2, G, V, Fp. subst. unfold ad_alt_step.
  set (m := if fgtb (Fin r) p'' then _ else _).
  assert (Fm : factor m).
  { unfold m. destruct (fgtb _ _); apply f_sub; try easy; intros i; destruct p'' as [w|j|]; cbn; try (now destruct (Fp j)); repeat destruct (Rltb _ _); easy. }
  clearbody m. assert (K : sum3 (fadd s (fmul m v)) (fadd s' (fmul m v')) (fadd s'' (fmul m v''))) by (apply s3_add; [easy|now apply s3_mul_l]).
  split; cbn [fst snd]; [split; cbn [fst snd]; easy|easy].
Qed.
Lemma idx_factor l i x : finite l -> idx l i = Ok x -> factor x.
Proof.
  intros H E. unfold idx in E. destruct (nth_error l i) eqn:N; [|easy]. apply nth_error_In in N. unfold finite in H. rewrite Forall_forall in H.
  destruct (H _ N) as [r ->]. now injection E as <-.
Qed.

Lemma signum_factor x : factor (fsignum x).
Proof. intros t. destruct x as [r|[]|]; cbn; try easy. now destruct (Rltb r 0). Qed.
Lemma vforce_alt_3 h l cl a b c : S3 a b c -> R3 (vforce_alt h l cl a) (vforce_alt h l cl b) (vforce_alt h l cl c).
Proof.
  intros H. unfold vforce_alt. eapply bind3; [apply (tail4_3 (fun _ => True)); [apply Forall_forall; easy|exact H]|].
  intros x y z X. apply same3. intros h0 _. apply same3. intros l0 _. apply same3. intros c0 _. apply ok3.
  eapply f3_scan with (U := fun s s' s'' => s = s' /\ s = s''); [|exact X|easy].
  intros [[s0 s1] s2] s' s'' [[[q r] t] v] [q' v'] [q'' v''] [E1 E2] [(G1 & G2 & _) V]. cbn in G1, G2, V. subst. unfold vforce_alt_step.
  split; cbn [fst snd]; [easy|]. apply s3_mul_r; [apply signum_factor|easy].
Qed.

(** The accumulated ranges of [vforce] are numbers of at least 0. *)
Definition nn (x : xr) : Prop := exists r, x = Fin r /\ (0 <= r)%R.
Lemma vforce_3 h l cl a b c : proper h l cl -> S3 a b c -> R3 (vforce h l cl a) (vforce h l cl b) (vforce h l cl c).
Proof.
  intros W H. unfold vforce. eapply bind3; [apply (tail4_3 bar); [exact W|exact H]|].
  intros x y z X. apply same3. intros h0 _. apply same3. intros l0 _. apply same3. intros c0 _. apply ok3.
  assert (Z : nn (flit 0 1)) by (exists 0%R; split; [apply x_lit|lra]).
  eapply f3_scan with (U := fun s s' s'' => s = s' /\ s = s'' /\ nn (snd s) /\ nn (snd (fst s))); [|exact X|easy].
  intros [[[[[s0 s1] s2] s3] s4] s5] s' s'' [q v] [q' v'] [q'' v''] (E1 & E2 & (r5 & E5 & P5) & (r4 & E & P4)) [(G1 & G2 & (u & t & r & G & K)) V].
  cbn in E5, E, G1, G2, G, V. subst. unfold vforce_step.
  set (tr := fsignum _). assert (Ft : factor tr) by apply signum_factor. clearbody tr.
  set (cm := if feqb tr s3 then _ else _).
  assert (Cm : exists m, cm = Fin m /\ (u - t <= m)%R) by (unfold cm; destruct (feqb _ _); cbn; eexists; (split; [reflexivity|lra])).
  clearbody cm. destruct Cm as (m & -> & Pm).
  set (k := fsub (fdiv _ _) _). assert (Fk : factor k).
  { apply f_sub; [|easy]. apply quot_nan_factor. lra. }
  clearbody k. split; cbn [fst snd].
  - split; [easy|]. split; [easy|]. split; [exists (u - t)%R|exists m]; (split; [easy|lra]).
  - apply s3_mul_r; [easy|]. apply s3_mul_r; [easy|]. now apply s3_mul_r.
Qed.
Lemma kvo_tail_3 a b c s l : S3 a b c ->
  R3 (let* x := ewma a s in let* y := ewma a l in Ok (fnan :: map (fun '(x, y) => fsub x y) (combine x y)))
     (let* x := ewma b s in let* y := ewma b l in Ok (fnan :: map (fun '(x, y) => fsub x y) (combine x y)))
     (let* x := ewma c s in let* y := ewma c l in Ok (fnan :: map (fun '(x, y) => fsub x y) (combine x y))).
Proof.
  intros H. eapply bind3; [now apply ewma_3|]. intros. eapply bind3; [now apply ewma_3|]. intros. apply ok3. constructor; [exact s3_nan|now apply diff_3].
Qed.

(** ** The theorems *)

Section Sums.
  Variables (a b : list xr).
  Hypothesis L : length a = length b.

  Theorem elder_force_parts close w : finite close ->
    elder_force close (plus a b) w = plus_of (elder_force close a w) (elder_force close b w).
  Proof. intros. apply to_plus. apply elder_force_3; [easy|now apply plus_sum3]. Qed.
  Theorem vpt_parts close : nonzero close -> vpt close (plus a b) = plus_of (vpt close a) (vpt close b).
  Proof. intros. apply to_plus. apply vpt_3; [easy|now apply plus_sum3]. Qed.
  Theorem ad_parts high low close alt : proper high low close -> finite close ->
    ad high low close (plus a b) alt = plus_of (ad high low close a alt) (ad high low close b alt).
  Proof.
    intros W Hc. apply to_plus. pose proof (plus_sum3 a b L) as H. unfold ad. destruct (negb _).
    - apply ok3. now apply ad_plain_3.
    - eapply bind3; [apply (tail4_3 bar); [exact W|exact H]|]. intros x y z X. apply same3. intros c0 E. apply ok3.
      constructor; [exact s3_nan|]. apply ad_alt_3; [now apply (idx_factor close 0)|exact X].
  Qed.
  (** The default mode of [kvo] needs nothing of the prices. *)
  Theorem kvo_parts high low close short long alt : (unwrap_or alt true = false -> proper high low close) ->
    kvo high low close (plus a b) short long alt =
    plus_of (kvo high low close a short long alt) (kvo high low close b short long alt).
  Proof.
    intros W. apply to_plus. pose proof (plus_sum3 a b L) as H. unfold kvo. destruct (unwrap_or alt true).
    - eapply bind3; [now apply vforce_alt_3|]. intros. now apply kvo_tail_3.
    - eapply bind3; [apply vforce_3; [now apply W|exact H]|]. intros. now apply kvo_tail_3.
  Qed.
End Sums.

(** ** Ratios *)

Local Open Scope R_scope.

(** The mediant of two fractions lies between them. *)
Lemma mediant p q r s : 0 < q -> 0 < s -> Rmin (p / q) (r / s) <= (p + r) / (q + s) <= Rmax (p / q) (r / s).
Proof.
  intros Q S. assert (E : (p + r) / (q + s) = p / q * (q / (q + s)) + r / s * (s / (q + s))) by (field; lra).
  assert (A : 0 <= q / (q + s)) by (apply Rdiv_nonneg; lra). assert (B : 0 <= s / (q + s)) by (apply Rdiv_nonneg; lra).
  assert (T : q / (q + s) + s / (q + s) = 1) by (field; lra). rewrite E.
  pose proof (Rmin_l (p / q) (r / s)). pose proof (Rmin_r (p / q) (r / s)). pose proof (Rmax_l (p / q) (r / s)). pose proof (Rmax_r (p / q) (r / s)).
  set (lo := Rmin _ _) in *. set (hi := Rmax _ _) in *. set (x := p / q) in *. set (y := r / s) in *.
  set (u := q / (q + s)) in *. set (v := s / (q + s)) in *. clearbody lo hi x y u v.
  split.
  - replace lo with (lo * u + lo * v) by nra. apply Rplus_le_compat; apply Rmult_le_compat_r; easy.
  - replace hi with (hi * u + hi * v) by nra. apply Rplus_le_compat; apply Rmult_le_compat_r; easy.
Qed.
Lemma last_bars_plus w f g i : Rsum (last_bars w (fun k => f k + g k) i) = Rsum (last_bars w f i) + Rsum (last_bars w g i).
Proof. unfold last_bars. apply Rsum_map_add. Qed.
Lemma sum_bars_plus f g s i : sum_bars (fun k => f k + g k) s i = sum_bars f s i + sum_bars g s i.
Proof. unfold sum_bars. apply Rsum_map_add. Qed.
Lemma wmean_mix w x u v i : 0 < Rsum (last_bars w u i) -> 0 < Rsum (last_bars w v i) ->
  let m f := wmean (last_bars w f i) (last_bars w x i) in
  Rmin (m u) (m v) <= m (fun k => u k + v k) <= Rmax (m u) (m v).
Proof.
  intros U V m. unfold m, wmean, wsum. rewrite !combine_last_bars, !map_last_bars, last_bars_plus. cbn [fst snd].
  replace (last_bars w (fun k => (u k + v k) * x k) i) with (last_bars w (fun k => u k * x k + v k * x k) i)
    by (unfold last_bars; apply map_ext; intros; ring).
  rewrite last_bars_plus. now apply mediant.
Qed.
Lemma wilder_total_plus w k f g i : wilder_total w k (fun j => f j + g j) i = wilder_total w k f i + wilder_total w k g i.
Proof.
  unfold wilder_total. rewrite Rsum_map_add. generalize (Rsum (map f (seq k (w - 1)))) as s, (Rsum (map g (seq k (w - 1)))) as t.
  induction (seq _ _) as [|j l IH]; intros s t; [easy|]. cbn [map fold_left]. rewrite <- IH. f_equal. unfold Rdiv. ring.
Qed.

Section Ratios.
  Variables (h l c u v : nat -> R) (n w : nat).
  Hypothesis Hw : (0 < w)%nat.
  Let uv := fun k => u k + v k.

  Theorem vwma_mix d : (forall i, (w - 1 <= i < n)%nat -> 0 < Rsum (last_bars w u i) /\ 0 < Rsum (last_bars w v i)) ->
    mixes n (w - 1) (vwma (xseries d n) (xseries u n) w) (vwma (xseries d n) (xseries v n) w)
      (vwma (xseries d n) (xseries (fun k => u k + v k) n) w).
  Proof.
    clear h l c. intros P. destruct (vwma_real d u n w Hw) as (a & Ea & (_ & _ & A)); [intros i Hi; specialize (P i Hi); lra|].
    destruct (vwma_real d v n w Hw) as (b & Eb & (_ & _ & B)); [intros i Hi; specialize (P i Hi); lra|].
    destruct (vwma_real d uv n w Hw) as (o & Eo & (_ & _ & O)); [intros i Hi; specialize (P i Hi); unfold uv; rewrite last_bars_plus; lra|].
    exists a, b, o. repeat (split; [easy|]). intros i Hi. do 3 eexists. split; [apply A; lia|]. split; [apply B; lia|]. split; [apply O; lia|].
    apply wmean_mix; now apply P.
  Qed.
  Theorem cmf_mix : (forall k, (k < n)%nat -> h k <> l k) ->
    (forall i, (w - 1 <= i < n)%nat -> 0 < Rsum (last_bars w u i) /\ 0 < Rsum (last_bars w v i)) ->
    mixes n (w - 1) (cmf (xseries h n) (xseries l n) (xseries c n) (xseries u n) w)
      (cmf (xseries h n) (xseries l n) (xseries c n) (xseries v n) w)
      (cmf (xseries h n) (xseries l n) (xseries c n) (xseries (fun k => u k + v k) n) w).
  Proof.
    intros N P. destruct (cmf_real h l c u n w Hw N) as (a & Ea & (_ & _ & A)); [intros i Hi; specialize (P i Hi); lra|].
    destruct (cmf_real h l c v n w Hw N) as (b & Eb & (_ & _ & B)); [intros i Hi; specialize (P i Hi); lra|].
    destruct (cmf_real h l c uv n w Hw N) as (o & Eo & (_ & _ & O)); [intros i Hi; specialize (P i Hi); unfold uv; rewrite last_bars_plus; lra|].
    exists a, b, o. repeat (split; [easy|]). intros i Hi. do 3 eexists. split; [apply A; lia|]. split; [apply B; lia|]. split; [apply O; lia|].
    apply wmean_mix; now apply P.
  Qed.
  Theorem vwap_mix resets : resets <> Some [] -> StronglySorted lt (unwrap_or resets [n]) ->
    (forall s i, (s <= i < n)%nat -> 0 < sum_bars u s i /\ 0 < sum_bars v s i) ->
    mixes n 0 (vwap (xseries h n) (xseries l n) (xseries c n) (xseries u n) resets)
      (vwap (xseries h n) (xseries l n) (xseries c n) (xseries v n) resets)
      (vwap (xseries h n) (xseries l n) (xseries c n) (xseries (fun k => u k + v k) n) resets).
  Proof.
    clear w Hw. intros R1 R2 P.
    assert (Q : forall i, (i < n)%nat -> 0 < sum_bars u (session (unwrap_or resets [n]) i) i /\ 0 < sum_bars v (session (unwrap_or resets [n]) i) i).
    { intros i Hi. apply P. split; [|easy]. apply session_le. }
    destruct (vwap_real h l c u n resets R1 R2) as (a & Ea & (_ & _ & A)); [intros i Hi; specialize (Q i Hi); lra|].
    destruct (vwap_real h l c v n resets R1 R2) as (b & Eb & (_ & _ & B)); [intros i Hi; specialize (Q i Hi); lra|].
    destruct (vwap_real h l c uv n resets R1 R2) as (o & Eo & (_ & _ & O)); [intros i Hi; specialize (Q i Hi); unfold uv; rewrite sum_bars_plus; lra|].
    exists a, b, o. repeat (split; [easy|]). intros i Hi. do 3 eexists. split; [apply A; lia|]. split; [apply B; lia|]. split; [apply O; lia|].
    specialize (Q i ltac:(lia)). set (s := session _ i) in *. unfold uv. rewrite sum_bars_plus.
    replace (sum_bars (fun k => typical_price h l c k * (u k + v k)) s i)
      with (sum_bars (fun k => typical_price h l c k * u k) s i + sum_bars (fun k => typical_price h l c k * v k) s i).
    - now apply mediant.
    - rewrite <- sum_bars_plus. unfold sum_bars. f_equal. apply map_ext. intros. ring.
  Qed.
  Theorem twiggs_mix : (w <= n)%nat ->
    (forall k, (1 <= k)%nat -> Rmin (l k) (c (k - 1)%nat) < Rmax (h k) (c (k - 1)%nat)) ->
    (forall i, (w <= i < n)%nat -> 0 < wilder_total w 1 u i /\ 0 < wilder_total w 1 v i) ->
    mixes n w (twiggs (xseries h n) (xseries l n) (xseries c n) (xseries u n) w)
      (twiggs (xseries h n) (xseries l n) (xseries c n) (xseries v n) w)
      (twiggs (xseries h n) (xseries l n) (xseries c n) (xseries (fun k => u k + v k) n) w).
  Proof.
    intros Hn N P. assert (W : (0 < w <= n)%nat) by lia.
    destruct (twiggs_real h l c u n w W N) as (a & Ea & (_ & _ & A)); [intros i Hi; specialize (P i Hi); lra|].
    destruct (twiggs_real h l c v n w W N) as (b & Eb & (_ & _ & B)); [intros i Hi; specialize (P i Hi); lra|].
    destruct (twiggs_real h l c uv n w W N) as (o & Eo & (_ & _ & O)); [intros i Hi; specialize (P i Hi); unfold uv; rewrite wilder_total_plus; lra|].
    exists a, b, o. repeat (split; [easy|]). intros i Hi. do 3 eexists. split; [apply A; lia|]. split; [apply B; lia|]. split; [apply O; lia|].
    specialize (P i ltac:(lia)). unfold uv. rewrite wilder_total_plus.
    replace (wilder_total w 1 (fun k => twiggs_location h l c k * (u k + v k)) i)
      with (wilder_total w 1 (fun k => twiggs_location h l c k * u k) i + wilder_total w 1 (fun k => twiggs_location h l c k * v k) i).
    - now apply mediant.
    - rewrite <- wilder_total_plus. unfold wilder_total. f_equal; [|f_equal]; apply map_ext; intros; ring.
  Qed.
  Theorem mfi_mix : (0 < n)%nat -> (forall k, (k < n)%nat -> 0 <= h k /\ 0 <= l k /\ 0 <= c k /\ 0 <= u k /\ 0 <= v k) ->
    (forall i, (w <= i < n)%nat -> let flow x := Rsum (last_bars w (up_flow (typical_price h l c) x) i) + Rsum (last_bars w (down_flow (typical_price h l c) x) i) in
      0 < flow u /\ 0 < flow v) ->
    mixes n w (mfi (xseries h n) (xseries l n) (xseries c n) (xseries u n) w)
      (mfi (xseries h n) (xseries l n) (xseries c n) (xseries v n) w)
      (mfi (xseries h n) (xseries l n) (xseries c n) (xseries (fun k => u k + v k) n) w).
  Proof.
    intros Hn N P.
    destruct (mfi_real h l c u n w Hw Hn) as (a & Ea & (_ & _ & A)); [intros k Hk; specialize (N k Hk); tauto|].
    destruct (mfi_real h l c v n w Hw Hn) as (b & Eb & (_ & _ & B)); [intros k Hk; specialize (N k Hk); tauto|].
    destruct (mfi_real h l c uv n w Hw Hn) as (o & Eo & (_ & _ & O)); [intros k Hk; specialize (N k Hk); unfold uv; repeat split; try tauto; lra|].
    exists a, b, o. repeat (split; [easy|]). intros i Hi. specialize (P i Hi). cbv zeta in P. set (tp := typical_price h l c) in *.
    assert (U : Rsum (last_bars w (up_flow tp uv) i) = Rsum (last_bars w (up_flow tp u) i) + Rsum (last_bars w (up_flow tp v) i)).
    { rewrite <- last_bars_plus. unfold last_bars. f_equal. apply map_ext. intros k. unfold up_flow, uv. destruct (Rltb _ _); ring. }
    assert (D : Rsum (last_bars w (down_flow tp uv) i) = Rsum (last_bars w (down_flow tp u) i) + Rsum (last_bars w (down_flow tp v) i)).
    { rewrite <- last_bars_plus. unfold last_bars. f_equal. apply map_ext. intros k. unfold down_flow, uv. destruct (Rltb _ _); ring. }
    do 3 eexists. split; [rewrite A by lia; cbv zeta; rewrite (proj2 (XRFacts.Req_false _ _)) by (fold tp; lra); reflexivity|].
    split; [rewrite B by lia; cbv zeta; rewrite (proj2 (XRFacts.Req_false _ _)) by (fold tp; lra); reflexivity|].
    split; [rewrite O by lia; cbv zeta; rewrite (proj2 (XRFacts.Req_false _ _)) by (fold tp; rewrite U, D; lra); reflexivity|].
    fold tp. rewrite U, D. destruct P as [P1 P2].
    match goal with |- context [(?p + ?r) / (?p + ?r + (?q + ?s))] => replace (p + r + (q + s)) with (p + q + (r + s)) by ring;
      pose proof (mediant p (p + q) r (r + s) P1 P2) as M; revert M; generalize (p / (p + q)), (r / (r + s)), ((p + r) / (p + q + (r + s))) end.
    intros x y z M. destruct (Rle_dec x y); [rewrite Rmin_left, Rmax_right in * by lra|rewrite Rmin_right, Rmax_left in * by lra]; lra.
  Qed.
End Ratios.

(** The ratio is not the sum of the ratios: two equal halves have the ratio of the whole. *)
Theorem vwma_parts_refuted : exists d u v w, length u = length v /\
  vwma (xseries d 1) (plus u v) w <> plus_of (vwma (xseries d 1) u w) (vwma (xseries d 1) v w).
Proof.
  exists (fun _ => 1), (xseries (fun _ => 1) 1), (xseries (fun _ => 1) 1), 1%nat. split; [easy|]. rewrite plus_xseries.
  destruct (vwma_real (fun _ => 1) (fun _ => 1) 1 1) as (a & Ea & (_ & _ & A)); [lia|intros [|i] Hi; try lia; cbn; lra|].
  destruct (vwma_real (fun _ => 1) (fun _ => 1 + 1) 1 1) as (b & Eb & (_ & _ & B)); [lia|intros [|i] Hi; try lia; cbn; lra|].
  rewrite Ea, Eb. cbn [plus_of bind]. intros E. injection E as E. specialize (A 0%nat ltac:(lia)). specialize (B 0%nat ltac:(lia)).
  rewrite E, (plus_at _ _ _ _ _ A A) in B. cbn in B. injection B as B. unfold wmean, wsum in B. cbn in B. lra.
Qed.

(** ** The hypotheses are met *)

Definition ex_high (k : nat) : R := INR k + 3.
Definition ex_low (k : nat) : R := INR k + 1.
Definition ex_close (k : nat) : R := INR k + 2.
Lemma ex_proper n : proper (xseries ex_high n) (xseries ex_low n) (xseries ex_close n).
Proof.
  unfold proper, zip3, xseries, series. induction (seq 0 n) as [|k q IH]; [constructor|]. cbn [map combine]. constructor; [|exact IH].
  exists (ex_high k), (ex_low k), (ex_close k). split; [easy|]. unfold ex_high, ex_low, ex_close. lra.
Qed.
Lemma ex_nonzero n : nonzero (xseries ex_close n).
Proof.
  unfold nonzero, xseries, series. apply Forall_map, Forall_forall. intros k _. exists (ex_close k). split; [easy|]. unfold ex_close. pose proof (pos_INR k). lra.
Qed.
Lemma ex_finite n : finite (xseries ex_close n).
Proof. unfold finite, xseries, series. apply Forall_map, Forall_forall. intros k _. now exists (ex_close k). Qed.
Example ad_parts_case : ad (xseries ex_high 9) (xseries ex_low 9) (xseries ex_close 9) (plus (xseries INR 9) (xseries (fun _ => 7) 9)) None =
  plus_of (ad (xseries ex_high 9) (xseries ex_low 9) (xseries ex_close 9) (xseries INR 9) None)
    (ad (xseries ex_high 9) (xseries ex_low 9) (xseries ex_close 9) (xseries (fun _ => 7) 9) None) :=
  ad_parts (xseries INR 9) (xseries (fun _ => 7) 9) eq_refl _ _ _ None (ex_proper 9) (ex_finite 9).
Example vpt_parts_case : vpt (xseries ex_close 9) (plus (xseries INR 9) (xseries (fun _ => 7) 9)) =
  plus_of (vpt (xseries ex_close 9) (xseries INR 9)) (vpt (xseries ex_close 9) (xseries (fun _ => 7) 9)) :=
  vpt_parts (xseries INR 9) (xseries (fun _ => 7) 9) eq_refl _ (ex_nonzero 9).
Lemma ex_sum (x : R) w i : 0 < x -> (0 < w)%nat -> 0 < Rsum (last_bars w (fun _ => x) i).
Proof.
  intros X W. unfold last_bars. destruct w; [lia|]. cbn [seq map]. rewrite Rsum_cons.
  assert (0 <= Rsum (map (fun _ : nat => x) (seq (S (i + 1 - S w)) w))). { apply Rsum_nonneg. intros y Hy. apply in_map_iff in Hy as (? & <- & _). lra. }
  lra.
Qed.
Example cmf_mix_case : mixes 9 2 (cmf (xseries ex_high 9) (xseries ex_low 9) (xseries ex_close 9) (xseries (fun _ => 5) 9) 3)
  (cmf (xseries ex_high 9) (xseries ex_low 9) (xseries ex_close 9) (xseries (fun _ => 7) 9) 3)
  (cmf (xseries ex_high 9) (xseries ex_low 9) (xseries ex_close 9) (xseries (fun _ => 5 + 7) 9) 3).
Proof.
  apply (cmf_mix ex_high ex_low ex_close (fun _ => 5) (fun _ => 7) 9%nat 3%nat); [lia| |].
  - intros k _. unfold ex_high, ex_low. lra.
  - intros i _. split; apply ex_sum; lra || lia.
Qed.
