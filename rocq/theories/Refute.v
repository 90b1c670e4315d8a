(** * Refute: concrete binary64 inputs on which a claim a user might rely on fails.

    Every theorem is an existential statement about the binary64 instance, for
    every choice [m] of the platform's transcendental functions; the kernel
    computes the outputs with Flocq's arithmetic.  [dec n d] is the float the
    literal [n/d] denotes. *)
From Coq Require Import ZArith List Bool Lia.
From Flocq Require Import IEEE754.BinarySingleNaN.
From Verif Require Import Num B64 Smooth Momentum Trend Volatility Distribution Correlation Volume.
Import ListNotations.
Local Unset Implicit Arguments.

Definition dec (n : Z) (d : positive) : f64 := b64_lit n d.
Definition int (n : Z) : f64 := b64_lit n 1.

(** In a list of results, the value at a bar. *)
Definition prints {A} (r : result (list A)) (i : nat) (x : A) : Prop :=
  exists o, r = Ok o /\ nth_error o i = Some x.

(** To find such a value it is enough to compute a boolean: no float ever has
    to be put in normal form. *)
Definition shows {A} (r : result (list A)) (i : nat) (p : A -> bool) : bool :=
  match r with Ok o => match nth_error o i with Some x => p x | None => false end | Panic => false end.
Lemma shows_prints {A} (r : result (list A)) i p : shows r i p = true -> exists x, prints r i x /\ p x = true.
Proof.
  unfold shows. destruct r as [o|]; [|easy]. destruct (nth_error o i) as [x|] eqn:E; [|easy].
  intros H. exists x. split; [|easy]. now exists o.
Qed.
Ltac seen m := apply shows_prints; destruct m as [? ? ? ? ? ? ? []]; vm_compute; reflexivity.

(** C08: the mean of three equal prices 0.1 is printed strictly above 0.1. *)
Theorem sma_f64_leaves_range (m : libm) : exists data x,
  prints (@sma _ (B64 m) data 3) 2 x /\ length data = 3%nat /\ Forall (fun y => Bltb y x = true) data.
Proof.
  exists [dec 1 10; dec 1 10; dec 1 10].
  assert (H : exists x, prints (@sma _ (B64 m) [dec 1 10; dec 1 10; dec 1 10] 3) 2 x /\ Bltb (dec 1 10) x = true) by seen m.
  destruct H as (x & H & L). exists x. now repeat constructor.
Qed.

(** C47: five rising prices drive rsi above 100 by one ulp. *)
Theorem rsi_f64_above_100 (m : libm) : exists data x,
  prints (@rsi _ (B64 m) data 3) 3 x /\ Bltb (int 100) x = true.
Proof. exists [dec 100 10; dec 101 10; dec 102 10; dec 103 10; dec 104 10]. seen m. Qed.

(** C48: consistent bars on which the smoothed %K of stochastic exceeds 100. *)
Theorem stochastic_f64_above_100 (m : libm) : exists high low close i x,
  Forall (fun '(h, l, c) => Bleb l c = true /\ Bleb c h = true) (zip3 high low close) /\
  prints (@stochastic _ (B64 m) high low close 2) i x /\ Bltb (int 100) (fst x) = true.
Proof.
  pose (h := [dec 50 10; dec 70 10; dec 83 10; dec 95 10; dec 130 10; dec 138 10; dec 187 10]).
  exists h, [dec 41 10; dec 53 10; dec 66 10; dec 84 10; dec 122 10; dec 119 10; dec 183 10], h.
  assert (H : exists i, shows (@stochastic _ (B64 m) h [dec 41 10; dec 53 10; dec 66 10; dec 84 10; dec 122 10; dec 119 10; dec 183 10] h 2) i (fun x => Bltb (int 100) (fst x)) = true).
  { destruct m as [? ? ? ? ? ? ? []];
    first [exists 3%nat; vm_compute; reflexivity | exists 4%nat; vm_compute; reflexivity | exists 5%nat; vm_compute; reflexivity | exists 6%nat; vm_compute; reflexivity]. }
  destruct H as (i & H). exists i. apply shows_prints in H. destruct H as (x & H & L). exists x.
  split; [|now split]. unfold h. cbv [zip3 combine map]. repeat (constructor; [split; vm_compute; reflexivity|]). constructor.
Qed.

(** C49: the documentation says cfo ranges from -100 to +100. *)
Theorem cfo_f64_leaves_range (m : libm) : exists data x,
  prints (@cfo _ (B64 m) data 3) 2 x /\ Bltb x (int (-100)) = true.
Proof. exists [int 10; int 10; int 1]. seen m. Qed.

(** C54: the stop printed while the trend is up (below that bar's low) is above
    the low of the bar before. *)
Theorem psar_f64_above_previous_low (m : libm) : exists high low l1 l2 x,
  Forall (fun '(h, l) => Bleb l h = true) (combine high low) /\
  nth_error low 1 = Some l1 /\ nth_error low 2 = Some l2 /\
  prints (@psar _ (B64 m) high low None None) 2 x /\ Bltb x l2 = true /\ Bltb l1 x = true.
Proof.
  exists [int 10; int 20; int 21], [int 10; int 9; int 10], (int 9), (int 10).
  assert (H : exists x, prints (@psar _ (B64 m) [int 10; int 20; int 21] [int 10; int 9; int 10] None None) 2 x /\ (Bltb x (int 10) && Bltb (int 9) x)%bool = true) by seen m.
  destruct H as (x & H & L). apply andb_prop in L. exists x. cbv [combine]. split; [|tauto].
  repeat (constructor; [vm_compute; reflexivity|]). constructor.
Qed.

(** C55: two consecutive bars on which supertrend prints its lower band (the
    stop of a long position) although the second is lower; the close never
    crosses the first. *)
Definition lower_band (m : libm) (high low close : list f64) (w : nat) (mult : f64) (i : nat) (x : f64) : Prop :=
  exists h l a, nth_error high i = Some h /\ nth_error low i = Some l /\
    prints (@atr _ (B64 m) high low close w) i a /\
    Beqb x (Bminus mode_NE (Bdiv mode_NE (Bplus mode_NE h l) (int 2)) (Bmult mode_NE mult a)) = true.
Theorem supertrend_f64_moves_back (m : libm) : exists high low close c x y,
  Forall (fun '(h, l, c) => Bleb l c = true /\ Bleb c h = true) (zip3 high low close) /\
  prints (@supertrend _ (B64 m) high low close 10 (int 3)) 11 x /\ lower_band m high low close 10 (int 3) 11 x /\
  prints (@supertrend _ (B64 m) high low close 10 (int 3)) 12 y /\ lower_band m high low close 10 (int 3) 12 y /\
  Bltb y x = true /\ nth_error close 12 = Some c /\ Bltb c x = false.
Proof.
  pose (h := repeat (int 101) 11 ++ [int 200; int 130]). pose (l := repeat (int 100) 11 ++ [int 99; int 110]).
  pose (c := repeat (int 100) 11 ++ [int 99; int 120]).
  pose (band := fun h l a => Bminus mode_NE (Bdiv mode_NE (Bplus mode_NE h l) (int 2)) (Bmult mode_NE (int 3) a)).
  assert (H : exists x, prints (@supertrend _ (B64 m) h l c 10 (int 3)) 11 x /\
     shows (@supertrend _ (B64 m) h l c 10 (int 3)) 12 (fun y => shows (@atr _ (B64 m) h l c 10) 11 (fun a => shows (@atr _ (B64 m) h l c 10) 12 (fun b =>
       Beqb x (band (int 200) (int 99) a) && Beqb y (band (int 130) (int 110) b) && Bltb y x && negb (Bltb (int 120) x))))%bool = true) by seen m.
  destruct H as (x & Hx & H). apply shows_prints in H. destruct H as (y & Hy & H). apply shows_prints in H. destruct H as (a & Ha & H).
  apply shows_prints in H. destruct H as (b & Hb & H). apply andb_prop in H. destruct H as (H & Z). apply andb_prop in H. destruct H as (H & L).
  apply andb_prop in H. destruct H as (E1 & E2). apply negb_true_iff in Z.
  exists h, l, c, (int 120), x, y. split; [|repeat split; try easy; [now exists (int 200), (int 99), a|now exists (int 130), (int 110), b]].
  unfold h, l, c. cbv [zip3 combine map repeat app]. repeat (constructor; [split; vm_compute; reflexivity|]). constructor.
Qed.

(** C57: falling bars after a high end with a second high: marks do not
    alternate (bar 1 is unmarked, and bar 2 has a low below its high). *)
Theorem zigzag_f64_two_highs (m : libm) : exists high low h0 h2 l2 a b c,
  Forall (fun '(h, l) => Bltb l h = true) (combine high low) /\ length high = 3%nat /\
  nth_error high 0 = Some h0 /\ nth_error high 2 = Some h2 /\ nth_error low 2 = Some l2 /\
  prints (@zigzag _ (B64 m) high low None) 0 a /\ prints (@zigzag _ (B64 m) high low None) 1 b /\ prints (@zigzag _ (B64 m) high low None) 2 c /\
  Beqb a h0 = true /\ is_nan b = true /\ Beqb c h2 = true /\ Bltb l2 c = true.
Proof.
  pose (h := [int 101; int 91; int 81]). pose (l := [int 100; int 90; int 80]).
  assert (H : exists x, prints (@zigzag _ (B64 m) h l None) 0 x /\ shows (@zigzag _ (B64 m) h l None) 1 (fun y => shows (@zigzag _ (B64 m) h l None) 2 (fun z =>
    Beqb x (int 101) && is_nan y && Beqb z (int 81) && Bltb (int 80) z))%bool = true) by seen m.
  destruct H as (x & Hx & H). apply shows_prints in H. destruct H as (y & Hy & H). apply shows_prints in H. destruct H as (z & Hz & H).
  apply andb_prop in H. destruct H as (H & Z). apply andb_prop in H. destruct H as (H & L). apply andb_prop in H. destruct H as (E1 & E2).
  exists h, l, (int 101), (int 81), (int 80), x, y, z. repeat split; try easy.
  unfold h, l. cbv [combine]. repeat (constructor; [vm_compute; reflexivity|]). constructor.
Qed.

(** The same inside the series, with a bar wider than the threshold: two
    consecutive pivots are both highs. *)
Theorem zigzag_f64_wide_bar (m : libm) : exists high low h0 h1 l1 a b,
  Forall (fun '(h, l) => Bltb l h = true) (combine high low) /\ length high = 4%nat /\
  nth_error high 0 = Some h0 /\ nth_error high 1 = Some h1 /\ nth_error low 1 = Some l1 /\
  prints (@zigzag _ (B64 m) high low None) 0 a /\ prints (@zigzag _ (B64 m) high low None) 1 b /\
  Beqb a h0 = true /\ Beqb b h1 = true /\ Bltb l1 b = true.
Proof.
  pose (h := [int 100; int 100; int 50; int 51]). pose (l := [int 99; int 80; int 49; int 50]).
  assert (H : exists x, prints (@zigzag _ (B64 m) h l None) 0 x /\ shows (@zigzag _ (B64 m) h l None) 1 (fun y =>
    Beqb x (int 100) && Beqb y (int 100) && Bltb (int 80) y)%bool = true) by seen m.
  destruct H as (x & Hx & H). apply shows_prints in H. destruct H as (y & Hy & H).
  apply andb_prop in H. destruct H as (H & L). apply andb_prop in H. destruct H as (E1 & E2).
  exists h, l, (int 100), (int 100), (int 80), x, y. repeat split; try easy.
  unfold h, l. cbv [combine]. repeat (constructor; [vm_compute; reflexivity|]). constructor.
Qed.

(** C42: the middle of a donchian channel overflows above its upper band. *)
Theorem donchian_f64_overflow (m : libm) : exists high low u mid lo,
  Forall (fun '(h, l) => Bleb l h = true /\ is_finite h = true) (combine high low) /\
  prints (@donchian _ (B64 m) high low 1) 0 (u, mid, lo) /\ Bltb u mid = true.
Proof.
  assert (H : exists x, prints (@donchian _ (B64 m) [Bmax_float] [Bmax_float] 1) 0 x /\ Bltb (fst (fst x)) (snd (fst x)) = true) by seen m.
  destruct H as ([[u mid] lo] & H & L). exists [Bmax_float], [Bmax_float], u, mid, lo. repeat split; try easy.
  constructor; [split; vm_compute; reflexivity|constructor].
Qed.

(** C16: a flat stretch of 24 bars followed by a move: vidya prints NaN on the
    move. *)
Theorem vidya_f64_flat (m : libm) : exists x,
  prints (@vidya _ (B64 m) (repeat (int 5) 24 ++ [int 6; int 9; int 7]) 10) 26 x /\ is_nan x = true.
Proof. seen m. Qed.

(** C04: zigzag rewrites an already printed mark when a bar is appended. *)
Theorem zigzag_f64_repaints (m : libm) : exists high low h l x y,
  prints (@zigzag _ (B64 m) high low None) 2 x /\ prints (@zigzag _ (B64 m) (high ++ [h]) (low ++ [l]) None) 2 y /\
  Beqb x x = true /\ Beqb x y = false.
Proof.
  assert (H : exists x, prints (@zigzag _ (B64 m) [int 101; int 91; int 81] [int 100; int 90; int 80] None) 2 x /\
    shows (@zigzag _ (B64 m) ([int 101; int 91; int 81] ++ [int 82]) ([int 100; int 90; int 80] ++ [int 81]) None) 2 (fun y => Beqb x x && negb (Beqb x y))%bool = true) by seen m.
  destruct H as (x & Hx & H). apply shows_prints in H. destruct H as (y & Hy & H). apply andb_prop in H. destruct H as (E & H). apply negb_true_iff in H.
  now exists [int 101; int 91; int 81], [int 100; int 90; int 80], (int 82), (int 81), x, y.
Qed.
(** and ichimoku fills in its lagging line. *)
Theorem ichimoku_f64_repaints (m : libm) : exists high low close h x y,
  prints (@ichimoku _ (B64 m) high low close 1 1 1 1) 1 x /\ prints (@ichimoku _ (B64 m) (high ++ [h]) (low ++ [h]) (close ++ [h]) 1 1 1 1) 1 y /\
  is_nan (snd x) = true /\ is_nan (snd y) = false.
Proof.
  pose (d := [int 10; int 11]).
  assert (H : exists x, prints (@ichimoku _ (B64 m) d d d 1 1 1 1) 1 x /\
    shows (@ichimoku _ (B64 m) (d ++ [int 12]) (d ++ [int 12]) (d ++ [int 12]) 1 1 1 1) 1 (fun y => is_nan (snd x) && negb (is_nan (snd y)))%bool = true) by seen m.
  destruct H as (x & Hx & H). apply shows_prints in H. destruct H as (y & Hy & H). apply andb_prop in H. destruct H as (E & H). apply negb_true_iff in H.
  now exists d, d, d, (int 12), x, y.
Qed.

(** sample_entropy and approx_entropy take their default tolerance from the
    whole series.  The logarithm is the platform's: for sample_entropy it only
    has to tell 1 from 1/3. *)
Section Entropy.
  Context {F : Type} {FO : FOps F}.
  Lemma first_window (v rest : list F) : v <> [] -> exists ws, windows (length v) (v ++ rest) = v :: ws.
  Proof.
    intros Hv. unfold windows. rewrite app_length. replace (length v + length rest + 1 - length v)%nat with (S (length rest)) by lia.
    cbn [seq map skipn]. rewrite firstn_app, Nat.sub_diag, firstn_all. cbn [firstn]. rewrite app_nil_r. now eexists.
  Qed.
  Lemma sample_entropy_first (v rest : list F) tol a b o :
    sample_entropy (v ++ rest) (length v) None None = Ok o -> v <> [] ->
    entropy_tol (v ++ rest) None = Ok tol -> matches tol v 3 = Ok a -> matches tol v 2 = Ok b ->
    nth_error o (length v - 1) = Some (fneg (fln (fdiv a b))).
  Proof.
    intros E Hw Et Ea Eb. unfold sample_entropy in E. cbn [unwrap_or] in E. rewrite Et in E. cbn [bind] in E.
    destruct (first_window v rest Hw) as (ws & W).
    assert (Hl : (0 < length v)%nat) by (destruct v; cbn; [easy|lia]).
    unfold usub in E. rewrite (proj2 (Nat.leb_le 1 (length v))) in E by lia. cbn [bind] in E.
    unfold rwindows in E. rewrite (proj2 (Nat.eqb_neq _ _)) in E by lia. cbn [bind] in E.
    rewrite W in E. cbn [rmap] in E. change (2 + 1)%nat with 3%nat in E. rewrite Ea, Eb in E. cbn [bind] in E.
    destruct (rmap _ ws) as [vs|]; [|easy]. cbn [bind] in E. injection E as <-.
    unfold pad. rewrite nth_error_app2; rewrite repeat_length; [|lia]. now rewrite Nat.sub_diag.
  Qed.
  Lemma approx_entropy_first (v rest : list F) tol a b o :
    approx_entropy (v ++ rest) (length v) None None = Ok o -> v <> [] ->
    entropy_tol (v ++ rest) None = Ok tol -> phi tol v 3 = Ok a -> phi tol v 2 = Ok b ->
    nth_error o (length v - 1) = Some (fabs (fsub a b)).
  Proof.
    intros E Hw Et Ea Eb. unfold approx_entropy in E. cbn [unwrap_or] in E. rewrite Et in E. cbn [bind] in E.
    destruct (first_window v rest Hw) as (ws & W).
    assert (Hl : (0 < length v)%nat) by (destruct v; cbn; [easy|lia]).
    unfold usub in E. rewrite (proj2 (Nat.leb_le 1 (length v))) in E by lia. cbn [bind] in E.
    unfold rwindows in E. rewrite (proj2 (Nat.eqb_neq _ _)) in E by lia. cbn [bind] in E.
    rewrite W in E. cbn [rmap] in E. change (2 + 1)%nat with 3%nat in E. rewrite Ea, Eb in E. cbn [bind] in E.
    destruct (rmap _ ws) as [vs|]; [|easy]. cbn [bind] in E. injection E as <-.
    unfold pad. rewrite nth_error_app2; rewrite repeat_length; [|lia]. now rewrite Nat.sub_diag.
  Qed.
  Definition runs (r : result (list F)) : bool := match r with Ok _ => true | Panic => false end.
  Lemma runs_ok r : runs r = true -> exists o, r = Ok o.
  Proof. destruct r as [o|]; [|easy]. now exists o. Qed.
  Lemma matches_is tol v k c : (k <= length v)%nat ->
    u8_count (map (fun '(i, j) => run_match tol (run v k i) (run v k j)) (upper_pairs (length v - k + 1))) 0 = Ok c ->
    matches tol v k = Ok (fadd (fmul (flit 2 1) (fofN c)) feps).
  Proof.
    intros Hk E. unfold matches, usub. rewrite (proj2 (Nat.leb_le _ _) Hk). cbn [bind]. rewrite E. reflexivity.
  Qed.
End Entropy.

Definition tol_of (m : libm) (data : list f64) : f64 := match @entropy_tol _ (B64 m) data None with Ok t => t | Panic => B754_nan end.
Definition base4 : list f64 := [int 10; int 20; int 11; int 22].
Ltac four m := destruct m as [? ? ? ? ? ? ? []]; vm_compute; reflexivity.

Theorem sample_entropy_f64_repaints (m : libm) : lm_ln m (int 1) <> lm_ln m (dec 1 3) ->
  exists data z x y, prints (@sample_entropy _ (B64 m) data 4 None None) 3 x /\
    prints (@sample_entropy _ (B64 m) (data ++ [z]) 4 None None) 3 y /\ x <> y.
Proof.
  intros Hln. exists base4, (int 1000000).
  assert (T1 : @entropy_tol _ (B64 m) (base4 ++ []) None = Ok (tol_of m base4)).
  { change (base4 ++ []) with base4. unfold tol_of.
    assert (H : match @entropy_tol _ (B64 m) base4 None with Ok _ => true | Panic => false end = true) by four m.
    now destruct entropy_tol. }
  assert (T2 : @entropy_tol _ (B64 m) (base4 ++ [int 1000000]) None = Ok (tol_of m (base4 ++ [int 1000000]))).
  { unfold tol_of.
    assert (H : match @entropy_tol _ (B64 m) (base4 ++ [int 1000000]) None with Ok _ => true | Panic => false end = true) by four m.
    now destruct entropy_tol. }
  destruct (runs_ok (@sample_entropy _ (B64 m) (base4 ++ []) (length base4) None None)) as (o1 & O1); [four m|].
  destruct (runs_ok (@sample_entropy _ (B64 m) (base4 ++ [int 1000000]) (length base4) None None)) as (o2 & O2); [four m|].
  assert (A1 : @matches _ (B64 m) (tol_of m base4) base4 3 = Ok (@fadd _ (B64 m) (@fmul _ (B64 m) (@flit _ (B64 m) 2 1) (@fofN _ (B64 m) 0)) (@feps _ (B64 m)))) by (apply matches_is; [cbn; lia|four m]).
  assert (A2 : @matches _ (B64 m) (tol_of m base4) base4 2 = Ok (@fadd _ (B64 m) (@fmul _ (B64 m) (@flit _ (B64 m) 2 1) (@fofN _ (B64 m) 0)) (@feps _ (B64 m)))) by (apply matches_is; [cbn; lia|four m]).
  assert (B1 : @matches _ (B64 m) (tol_of m (base4 ++ [int 1000000])) base4 3 = Ok (@fadd _ (B64 m) (@fmul _ (B64 m) (@flit _ (B64 m) 2 1) (@fofN _ (B64 m) 1)) (@feps _ (B64 m)))) by (apply matches_is; [cbn; lia|four m]).
  assert (B2 : @matches _ (B64 m) (tol_of m (base4 ++ [int 1000000])) base4 2 = Ok (@fadd _ (B64 m) (@fmul _ (B64 m) (@flit _ (B64 m) 2 1) (@fofN _ (B64 m) 3)) (@feps _ (B64 m)))) by (apply matches_is; [cbn; lia|four m]).
  pose proof (sample_entropy_first _ _ _ _ _ _ O1 ltac:(discriminate) T1 A1 A2) as P1.
  pose proof (sample_entropy_first _ _ _ _ _ _ O2 ltac:(discriminate) T2 B1 B2) as P2.
  eexists _, _. split; [exists o1; split; [exact O1|exact P1]|]. split; [exists o2; split; [exact O2|exact P2]|].
  intros E. apply Hln. change (Bopp (lm_ln m (Bdiv mode_NE (Bplus mode_NE (Bmult mode_NE (b64_lit 2 1) (b64_of_Z 0)) b64_eps) (Bplus mode_NE (Bmult mode_NE (b64_lit 2 1) (b64_of_Z 0)) b64_eps))) =
    Bopp (lm_ln m (Bdiv mode_NE (Bplus mode_NE (Bmult mode_NE (b64_lit 2 1) (b64_of_Z 1)) b64_eps) (Bplus mode_NE (Bmult mode_NE (b64_lit 2 1) (b64_of_Z 3)) b64_eps)))) in E.
  apply (f_equal Bopp) in E. rewrite !Bopp_involutive in E.
  replace (int 1) with (Bdiv mode_NE (Bplus mode_NE (Bmult mode_NE (b64_lit 2 1) (b64_of_Z 0)) b64_eps) (Bplus mode_NE (Bmult mode_NE (b64_lit 2 1) (b64_of_Z 0)) b64_eps)) by (apply B2SF_inj; vm_compute; reflexivity).
  rewrite E. f_equal. apply B2SF_inj. vm_compute. reflexivity.
Qed.

Section Entropy2.
  Context {F : Type} {FO : FOps F}.
  Lemma phi_is tol (v : list F) k cs : (k <= length v)%nat ->
    rmap (fun i => u8_count (map (fun j => run_match tol (run v k i) (run v k j)) (seq 0 (length v - k + 1))) 0) (seq 0 (length v - k + 1)) = Ok cs ->
    phi tol v k = Ok (fdiv (fold_left (fun s c => fadd s (fln (fdiv (fofN c) (fofnat (length v - k + 1))))) cs (flit 0 1)) (fofnat (length v - k + 1))).
  Proof.
    intros Hk E. unfold phi, usub. rewrite (proj2 (Nat.leb_le _ _) Hk). cbn [bind]. rewrite E. reflexivity.
  Qed.
End Entropy2.

(** For approx_entropy on a platform whose ln is correctly rounded at 1, 1/2 and 1/3. *)
Theorem approx_entropy_f64_repaints (m : libm) : lm_ln m (int 1) = int 0 ->
  lm_ln m (dec 1 2) = dec (-6931471805599453) 10000000000000000 ->
  lm_ln m (dec 1 3) = dec (-10986122886681098) 10000000000000000 ->
  exists data z x y, prints (@approx_entropy _ (B64 m) data 4 None None) 3 x /\
    prints (@approx_entropy _ (B64 m) (data ++ [z]) 4 None None) 3 y /\ Beqb x x = true /\ Beqb x y = false.
Proof.
  intros L1 L2 L3. exists base4, (int 1000000).
  assert (T1 : @entropy_tol _ (B64 m) (base4 ++ []) None = Ok (tol_of m base4)).
  { change (base4 ++ []) with base4. unfold tol_of.
    assert (H : match @entropy_tol _ (B64 m) base4 None with Ok _ => true | Panic => false end = true) by four m.
    now destruct entropy_tol. }
  assert (T2 : @entropy_tol _ (B64 m) (base4 ++ [int 1000000]) None = Ok (tol_of m (base4 ++ [int 1000000]))).
  { unfold tol_of.
    assert (H : match @entropy_tol _ (B64 m) (base4 ++ [int 1000000]) None with Ok _ => true | Panic => false end = true) by four m.
    now destruct entropy_tol. }
  destruct (runs_ok (@approx_entropy _ (B64 m) (base4 ++ []) (length base4) None None)) as (o1 & O1); [four m|].
  destruct (runs_ok (@approx_entropy _ (B64 m) (base4 ++ [int 1000000]) (length base4) None None)) as (o2 & O2); [four m|].
  epose proof (@phi_is _ (B64 m) (tol_of m base4) base4 3 [1; 1]%N ltac:(cbn; lia) ltac:(four m)) as A1.
  epose proof (@phi_is _ (B64 m) (tol_of m base4) base4 2 [1; 1; 1]%N ltac:(cbn; lia) ltac:(four m)) as A2.
  epose proof (@phi_is _ (B64 m) (tol_of m (base4 ++ [int 1000000])) base4 3 [2; 2]%N ltac:(cbn; lia) ltac:(four m)) as B1.
  epose proof (@phi_is _ (B64 m) (tol_of m (base4 ++ [int 1000000])) base4 2 [3; 3; 3]%N ltac:(cbn; lia) ltac:(four m)) as B2.
  pose proof (approx_entropy_first _ _ _ _ _ _ O1 ltac:(discriminate) T1 A1 A2) as P1.
  pose proof (approx_entropy_first _ _ _ _ _ _ O2 ltac:(discriminate) T2 B1 B2) as P2.
  eexists _, _. split; [exists o1; split; [exact O1|exact P1]|]. split; [exists o2; split; [exact O2|exact P2]|].
  clear - L1 L2 L3. cbn [fold_left]. change (length base4 - 3 + 1)%nat with 2%nat. change (length base4 - 2 + 1)%nat with 3%nat.
  replace (fdiv (fofN 1) (fofnat 2)) with (dec 1 2) by (apply B2SF_inj; vm_compute; reflexivity).
  replace (fdiv (fofN 1) (fofnat 3)) with (dec 1 3) by (apply B2SF_inj; vm_compute; reflexivity).
  replace (fdiv (fofN 2) (fofnat 2)) with (int 1) by (apply B2SF_inj; vm_compute; reflexivity).
  replace (fdiv (fofN 3) (fofnat 3)) with (int 1) by (apply B2SF_inj; vm_compute; reflexivity).
  change fln with (lm_ln m). rewrite L1, L2, L3. split; vm_compute; reflexivity.
Qed.
