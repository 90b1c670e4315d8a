(** * F64AccD: error measures in binary64, continued from F64AccC. *)

From Coq Require Import Reals Lra Lia ZArith Sorted.
From Flocq Require Import Core IEEE754.BinarySingleNaN.
From Verif Require Import Base Num Spec BaseFacts XReal XRFacts Scale Bars B64 F64 F64Range F64Err F64Osc.
From Verif Require Import Distribution Regression Correlation Smooth Volatility Trend Momentum Volume.
From Verif Require Import SmoothShape SmoothVals VolatReal VolumeReal MomReal TrendReal CorrReal F64Rel F64Acc F64AccB F64AccC.
Local Unset Implicit Arguments.
Local Open Scope R_scope.

(** The running means of regression.rs, bar by bar, in any arithmetic. *)
Lemma running_bars {F} {O : FOps F} (h : F -> F -> F) (k : nat -> F -> F) (d e : nat -> F) n :
  scan (fun st '(cnt, o, es) => let st' := fadd st (h o es) in (st', k cnt st')) (flit 0 1) (obs_est (series d n) (series e n)) =
  series (fun i => k i (fold_left (fun t j => fadd t (h (d j) (e j))) (seq 0 (i + 1)) (flit 0 1))) n.
Proof.
  unfold obs_est, series. rewrite enumerate_bars, combine_bars, Nat.min_id.
  apply (scan_inv_bars _ (fun i => fold_left (fun t j => fadd t (h (d j) (e j))) (seq 0 i) (flit 0 1))); [easy|]. intros i Hi. cbv beta iota zeta.
  rewrite !Nat.add_1_r, seq_S, fold_left_app. reflexivity.
Qed.

Section Fns.
  Context (m : libm).
  Notation B := (B64 m).
  Lemma near_running k lo hi (f : nat -> f64) (g : nat -> xr) i n : (forall j, (j < n)%nat -> near k lo hi (f j) (g j)) -> (i < n)%nat -> (Z.of_nat n <= 2 ^ 48)%Z -> few k -> (hi <= 971)%Z ->
    few (k + n) -> near (k + n) lo (hi + 48) (fold_left (fun t j => @fadd f64 B t (f j)) (seq 0 (i + 1)) (@flit f64 B 0 1)) (fold_left (fun t j => @fadd xr XR t (g j)) (seq 0 (i + 1)) (@flit xr XR 0 1)).
  Proof.
    intros H Hi Hn Hk Hh Hf. rewrite x_lit. eapply near_weaken; [apply (near_sum m k lo hi 48 _ f g)| | |]; rewrite ?seq_length; try small; try apply b64_zero0. intros j Hj. apply in_seq in Hj. apply H. lia.
  Qed.
  Lemma near_mean k lo hi x X i n : near (k + n) lo (hi + 48) x X -> (i < n)%nat -> (Z.of_nat n <= 2 ^ 48)%Z -> few (k + n) -> (hi <= 971)%Z -> (-967 <= lo)%Z ->
    near (k + n + 1) (lo - 53) (hi + 48) (@fdiv f64 B x (@fofnat f64 B (i + 1))) (@fdiv xr XR X (@fofnat xr XR (i + 1))).
  Proof.
    intros H Hi Hn Hf Hh Hl. rewrite x_nat. eapply near_weaken; [apply (near_div m (k + n) 0 lo 0 (hi + 48) 53); [exact H|apply near_count; lia|small|lia|lia]|lia|lia|lia].
  Qed.
  Definition both_sane (d e : nat -> f64) (n : nat) : Prop := forall k, (k < n)%nat -> sane (d k) /\ sane (e k).
  Lemma near_sqe d e n : both_sane d e n -> forall j, (j < n)%nat ->
    near 3 (-504) 402 (@powi2 f64 B (@fsub f64 B (d j) (e j))) (@powi2 xr XR (@fsub xr XR (exactly d j) (exactly e j))).
  Proof. intros H j Hj. destruct (H j Hj). unfold powi2, exactly. rewrite x_sub. apply (near_square m 1 (-252) 201); [now apply size_sub|small|lia|lia]. Qed.
  Lemma near_abe d e n : both_sane d e n -> forall j, (j < n)%nat ->
    near 1 (-252) 201 (@fabs f64 B (@fsub f64 B (d j) (e j))) (@fabs xr XR (@fsub xr XR (exactly d j) (exactly e j))).
  Proof. intros H j Hj. destruct (H j Hj). unfold exactly. rewrite x_sub, x_abs. now apply near_dist. Qed.

  Theorem mse_f64_accurate d e n : (Z.of_nat n <= 2 ^ 48)%Z -> both_sane d e n ->
    Forall2 (close (n + 4)) (@mse f64 B (series d n) (series e n)) (@mse xr XR (series (exactly d) n) (series (exactly e) n)).
  Proof.
    intros Hn H. unfold mse. rewrite (running_bars (fun o s => @powi2 f64 B (@fsub f64 B o s)) (fun i t => @fdiv f64 B t (@fofnat f64 B (i + 1)))), (running_bars (fun o s => @powi2 xr XR (@fsub xr XR o s)) (fun i t => @fdiv xr XR t (@fofnat xr XR (i + 1)))).
    apply f2_close_series. intros i Hi. replace (n + 4)%nat with (3 + n + 1)%nat by lia. eapply near_close; [small|]. apply near_mean with (hi := 402%Z) (lo := (-504)%Z); try small. apply near_running; try small. now apply near_sqe.
  Qed.
  Theorem rmse_f64_accurate d e n : (Z.of_nat n <= 2 ^ 48)%Z -> both_sane d e n ->
    Forall2 (close (n + 5)) (@rmse f64 B (series d n) (series e n)) (@rmse xr XR (series (exactly d) n) (series (exactly e) n)).
  Proof.
    intros Hn H. unfold rmse. rewrite (running_bars (fun o s => @powi2 f64 B (@fsub f64 B o s)) (fun i t => @fsqrt f64 B (@fdiv f64 B t (@fofnat f64 B (i + 1))))), (running_bars (fun o s => @powi2 xr XR (@fsub xr XR o s)) (fun i t => @fsqrt xr XR (@fdiv xr XR t (@fofnat xr XR (i + 1))))).
    apply f2_close_series. intros i Hi. replace (n + 5)%nat with (S (3 + n + 1))%nat by lia. apply near_close with (-279)%Z 225%Z; [small|]. apply near_sqrt; [|small|lia|lia].
    eapply near_weaken; [apply (near_mean 3 (-504) 402 _ _ i n); try small; apply near_running; try small; now apply near_sqe|lia|lia|lia].
  Qed.
  Theorem mae_f64_accurate d e n : (Z.of_nat n <= 2 ^ 48)%Z -> both_sane d e n ->
    Forall2 (close (n + 2)) (@mae f64 B (series d n) (series e n)) (@mae xr XR (series (exactly d) n) (series (exactly e) n)).
  Proof.
    intros Hn H. unfold mae. rewrite (running_bars (fun o s => @fabs f64 B (@fsub f64 B o s)) (fun i t => @fdiv f64 B t (@fofnat f64 B (i + 1)))), (running_bars (fun o s => @fabs xr XR (@fsub xr XR o s)) (fun i t => @fdiv xr XR t (@fofnat xr XR (i + 1)))).
    apply f2_close_series. intros i Hi. replace (n + 2)%nat with (1 + n + 1)%nat by lia. eapply near_close; [small|]. apply near_mean with (hi := 201%Z) (lo := (-252)%Z); try small. apply near_running; try small. now apply near_abe.
  Qed.
  Lemma near_percent k lo hi x X i n : near (k + n) lo (hi + 48) x X -> (i < n)%nat -> (Z.of_nat n <= 2 ^ 48)%Z -> few (k + n + 2) -> (hi <= 900)%Z -> (-900 <= lo)%Z ->
    close (k + n + 2) (@fdiv f64 B (@fmul f64 B (@flit f64 B 100 1) x) (@fofnat f64 B (i + 1))) (@fdiv xr XR (@fmul xr XR (@flit xr XR 100 1) X) (@fofnat xr XR (i + 1))).
  Proof.
    intros H Hi Hn Hf Hh Hl. rewrite x_nat, x_lit. replace (k + n + 2)%nat with (S (S (0 + (k + n)) + 0)) by lia. eapply near_close; [small|].
    eapply near_div; [eapply near_mul; [apply near_lit; lia|exact H|small|lia|lia]|apply near_count; lia|small|lia|lia].
  Qed.
  Theorem mape_f64_accurate d e n : (Z.of_nat n <= 2 ^ 48)%Z -> both_sane d e n ->
    Forall2 (close (n + 4)) (@mape f64 B (series d n) (series e n)) (@mape xr XR (series (exactly d) n) (series (exactly e) n)).
  Proof.
    intros Hn H. unfold mape. rewrite (running_bars (fun o s => @fabs f64 B (@fdiv f64 B (@fsub f64 B o s) o)) (fun i t => @fdiv f64 B (@fmul f64 B (@flit f64 B 100 1) t) (@fofnat f64 B (i + 1)))),
      (running_bars (fun o s => @fabs xr XR (@fdiv xr XR (@fsub xr XR o s) o)) (fun i t => @fdiv xr XR (@fmul xr XR (@flit xr XR 100 1) t) (@fofnat xr XR (i + 1)))).
    apply f2_close_series. intros i Hi. replace (n + 4)%nat with (2 + n + 2)%nat by lia. apply near_percent with (-452)%Z 401%Z; try small. apply near_running; try small.
    intros j Hj. destruct (H j Hj). unfold exactly. rewrite x_sub. apply (size_div m 1 0 (-252) (-200) 201 200); [now apply size_sub|now apply size_in|small|lia|lia].
  Qed.
  (** Two zeros: 0/0 is NaN and counts as no error. *)
  Lemma fin_zero (x : f64) : fin x -> B2R x = 0 -> exists s, x = B754_zero s.
  Proof.
    destruct x as [s| | |s mm ee bb]; try easy; [now exists s|]. intros _ V. exfalso. cbn in V. apply eq_0_F2R in V. now destruct s.
  Qed.
  Lemma near_sym a b : sane a -> sane b ->
    near 4 (-454) 473 (@fmax f64 B (@fdiv f64 B (@fabs f64 B (@fsub f64 B a b)) (@fdiv f64 B (@fadd f64 B (@fabs f64 B a) (@fabs f64 B b)) (@flit f64 B 2 1))) (@flit f64 B 0 1))
      (@fmax xr XR (@fdiv xr XR (@fabs xr XR (@fsub xr XR (Fin (B2R a)) (Fin (B2R b)))) (@fdiv xr XR (@fadd xr XR (@fabs xr XR (Fin (B2R a))) (@fabs xr XR (Fin (B2R b)))) (@flit xr XR 2 1))) (@flit xr XR 0 1)).
  Proof.
    intros Ha Hb. rewrite x_sub, !x_abs, !x_lit, x_add, (x_div _ 2) by lra.
    assert (N1 : near 1 (-252) 201 (@fabs f64 B (@fsub f64 B a b)) (Fin (Rabs (B2R a - B2R b)))) by now apply near_dist.
    assert (N2 : near 2 (-220) 201 (@fdiv f64 B (@fadd f64 B (@fabs f64 B a) (@fabs f64 B b)) (@flit f64 B 2 1)) (Fin ((Rabs (B2R a) + Rabs (B2R b)) / 2))).
    { rewrite <- (x_div _ 2) by lra. eapply near_weaken; [eapply near_div; [apply (near_add m 0 0 (-200) (-200) 200 200 _ _ (Fin (Rabs (B2R a))) (Fin (Rabs (B2R b)))); [exact (size_in a Ha)|exact (size_in b Hb)|small|lia]|apply near_lit; lia|small|lia|lia]| | |]; cbn; lia. }
    destruct (Req_dec ((Rabs (B2R a) + Rabs (B2R b)) / 2) 0) as [Z|NZ].
    - pose proof (Rabs_pos (B2R a)). pose proof (Rabs_pos (B2R b)). assert (Za : B2R a = 0) by (apply Rabs_eq_0; lra). assert (Zb : B2R b = 0) by (apply Rabs_eq_0; lra).
      destruct (fin_zero a (proj1 Ha) Za) as [s ->]. destruct (fin_zero b (proj1 Hb) Zb) as [t ->]. cbn [B2R]. rewrite Rminus_0_r, Rabs_R0. replace ((0 + 0) / 2) with 0 by lra. assert (Zz : Req 0 0 = true) by now apply Req_true. cbn [xdiv fdiv XR]. rewrite !Zz.
      apply near_zero; now destruct s, t.
    - rewrite x_div by easy. apply near_max.
      + rewrite <- x_div by easy. eapply near_weaken; [eapply near_div; [exact N1|exact N2|small|lia|lia]|lia|lia|lia].
      + apply near_zero; apply b64_zero0.
  Qed.
  Theorem smape_f64_accurate d e n : (Z.of_nat n <= 2 ^ 48)%Z -> both_sane d e n ->
    Forall2 (close (n + 6)) (@smape f64 B (series d n) (series e n)) (@smape xr XR (series (exactly d) n) (series (exactly e) n)).
  Proof.
    intros Hn H. unfold smape.
    rewrite (running_bars (fun o s => @fmax f64 B (@fdiv f64 B (@fabs f64 B (@fsub f64 B o s)) (@fdiv f64 B (@fadd f64 B (@fabs f64 B o) (@fabs f64 B s)) (@flit f64 B 2 1))) (@flit f64 B 0 1)) (fun i t => @fdiv f64 B (@fmul f64 B (@flit f64 B 100 1) t) (@fofnat f64 B (i + 1)))).
    rewrite (running_bars (fun o s => @fmax xr XR (@fdiv xr XR (@fabs xr XR (@fsub xr XR o s)) (@fdiv xr XR (@fadd xr XR (@fabs xr XR o) (@fabs xr XR s)) (@flit xr XR 2 1))) (@flit xr XR 0 1)) (fun i t => @fdiv xr XR (@fmul xr XR (@flit xr XR 100 1) t) (@fofnat xr XR (i + 1)))).
    apply f2_close_series. intros i Hi. replace (n + 6)%nat with (4 + n + 2)%nat by lia. apply near_percent with (-454)%Z 473%Z; try small. apply near_running; try small.
    intros j Hj. destruct (H j Hj). now apply near_sym.
  Qed.
  Theorem rsc_f64_accurate a b n : good a n -> good b n ->
    Forall2 (close 1) (@rsc f64 B (series a n) (series b n)) (@rsc xr XR (series (exactly a) n) (series (exactly b) n)).
  Proof.
    intros Ha Hb. unfold rsc. rewrite !combine_series, !map_map. apply f2_same. intros i Hi. apply in_seq in Hi. apply near_close with (-400)%Z 400%Z; [small|].
    apply (near_quot m 0 0 (-200) (-200) 200 200); [apply (good_near _ n); [easy|lia]|apply (good_near _ n); [easy|lia]|now eexists|small|lia|lia].
  Qed.
  Theorem emae_f64_accurate d e n : (Z.of_nat n <= 2 ^ 48)%Z -> good d n -> good e n ->
    accurate (2 * n + 4) (@emae f64 B (series d n) (series e n)) (@emae xr XR (series (exactly d) n) (series (exactly e) n)).
  Proof.
    intros Hn Hd He. unfold emae, zip_i32. rewrite !combine_series, !map_length, !seq_length. destruct (_ <? _)%N; [|exact I]. cbn [bind].
    replace (seq 1 n) with (map S (seq 0 n)) by now rewrite seq_shift. rewrite !combine_bars, !Nat.min_id.
    assert (V : forall {F} {O : FOps F} (d e : nat -> F), scan (fun '(s0, s1) '((actual, est), n) => let s0' := fadd s0 (fabs (fsub actual est)) in let s1' := fadd s1 (fmax actual est) in ((s0', s1'), fdiv (fmul (fdiv s0' s1') (flit 100 1)) (fofnat n)))
        (flit 0 1, flit 0 1) (map (fun k => ((d k, e k), S k)) (seq 0 n)) =
      map (fun i => fdiv (fmul (fdiv (fold_left (fun t j => fadd t (fabs (fsub (d j) (e j)))) (seq 0 (i + 1)) (flit 0 1)) (fold_left (fun t j => fadd t (fmax (d j) (e j))) (seq 0 (i + 1)) (flit 0 1))) (flit 100 1)) (fofnat (i + 1))) (seq 0 n)).
    { intros F O d' e'. apply (scan_inv_bars _ (fun i => (fold_left (fun t j => fadd t (fabs (fsub (d' j) (e' j)))) (seq 0 i) (flit 0 1), fold_left (fun t j => fadd t (fmax (d' j) (e' j))) (seq 0 i) (flit 0 1)))); [easy|]. intros i Hi. cbv beta iota zeta.
      rewrite !Nat.add_1_r, !seq_S, !fold_left_app. reflexivity. }
    change (Forall2 (close (2 * n + 4)) (scan (fun '(s0, s1) '((actual, est), n) => let s0' := @fadd f64 B s0 (@fabs f64 B (@fsub f64 B actual est)) in let s1' := @fadd f64 B s1 (@fmax f64 B actual est) in ((s0', s1'), @fdiv f64 B (@fmul f64 B (@fdiv f64 B s0' s1') (@flit f64 B 100 1)) (@fofnat f64 B n))) (@flit f64 B 0 1, @flit f64 B 0 1) (map (fun k => ((d k, e k), S k)) (seq 0 n)))
      (scan (fun '(s0, s1) '((actual, est), n) => let s0' := @fadd xr XR s0 (@fabs xr XR (@fsub xr XR actual est)) in let s1' := @fadd xr XR s1 (@fmax xr XR actual est) in ((s0', s1'), @fdiv xr XR (@fmul xr XR (@fdiv xr XR s0' s1') (@flit xr XR 100 1)) (@fofnat xr XR n))) (@flit xr XR 0 1, @flit xr XR 0 1) (map (fun k => ((exactly d k, exactly e k), S k)) (seq 0 n)))).
    rewrite (V f64 B), (V xr XR). apply f2_same. intros i Hi. apply in_seq in Hi. rewrite (x_lit 100), x_nat.
    replace (2 * n + 4)%nat with (S (S (S (1 + n + (0 + n)) + 0) + 0)) by lia. eapply near_close; [small|].
    apply (near_quot m _ 0 (-500) 0 469 53); [|apply near_count; lia|now eexists|small|lia|lia]. apply (near_mul m _ 0 (-500) 0 449 20); [|apply near_lit; lia|small|lia|lia].
    apply (near_quot m _ _ (-252) (-200) 249 248); [apply (near_running 1 (-252) 201 _ (fun j => @fabs xr XR (@fsub xr XR (exactly d j) (exactly e j))) i n); try small| | |small|lia|lia].
    - intros j Hj. unfold exactly. rewrite x_sub, x_abs. apply near_dist; [now apply (Hd j)|now apply (He j)].
    - apply (near_running 0 (-200) 200 _ (fun j => @fmax xr XR (exactly d j) (exactly e j)) i n); try small. intros j Hj. unfold exactly. apply near_max; [now apply (good_near d n)|now apply (good_near e n)].
    - rewrite x_lit. apply sum_fin. intros j _. unfold exactly. rewrite x_max. now eexists.
  Qed.
End Fns.
