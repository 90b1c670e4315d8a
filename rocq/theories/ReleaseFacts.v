(** * ReleaseFacts: what a build without overflow checks returns (C90).

    Wherever the checked build returns a value, the unchecked build returns the same
    one.  Where the checked build panics on an overflow, the unchecked build goes on
    with the count or product modulo a power of two, and the number it prints can be
    far from the one documented. *)

From Coq Require Import Reals Lra Lia.
From Verif Require Import Spec BaseFacts Tac DistShape XReal RSpec XRFacts Convex Bars DistReal RankCorr Dcor Adaptive Warm Ranges VolatReal Entropy Flat.
From Verif Require Import Smooth Distribution Correlation Release.
Local Unset Implicit Arguments.

(** ** The unchecked build agrees with the checked one wherever that returns *)
Lemma wmul_ok a b c : umul a b = Ok c -> wmul a b = c.
Proof. unfold umul, wmul. destruct (N.ltb_spec (a * b) two64); [|easy]. intros E. apply Ok_inj in E. subst c. now apply N.mod_small. Qed.
Lemma wadd_ok a b c : uadd a b = Ok c -> wadd a b = c.
Proof. unfold uadd, wadd. destruct (N.ltb_spec (a + b) two64); [|easy]. intros E. apply Ok_inj in E. subst c. now apply N.mod_small. Qed.
Lemma wsub_ok a b c : (a < two64)%N -> usubN a b = Ok c -> wsub a b = c.
Proof.
  unfold usubN, wsub. intros L. destruct (N.leb_spec b a); [|easy]. intros E. apply Ok_inj in E. subst c.
  replace (a + two64 - b)%N with (a - b + 1 * two64)%N by lia. rewrite N.mod_add by easy. apply N.mod_small. lia.
Qed.
Lemma uadd_lt a b c : uadd a b = Ok c -> (c < two64)%N.
Proof. unfold uadd. destruct (N.ltb_spec (a + b) two64); [|easy]. intros E. apply Ok_inj in E. now subst c. Qed.
Lemma umul_lt a b c : umul a b = Ok c -> (c < two64)%N.
Proof. unfold umul. destruct (N.ltb_spec (a * b) two64); [|easy]. intros E. apply Ok_inj in E. now subst c. Qed.

Lemma pascal_step_same n st i st' : pascal_step n st i = Ok st' -> pascal_step_release n st i = Ok st' /\ (snd st' < two64)%N.
Proof.
  unfold pascal_step, pascal_step_release. destruct st as [row denom].
  destruct (usub i 1) as [k|]; [|easy]. cbn [bind]. destruct (idx row k) as [rk|]; [|easy]. cbn [bind].
  destruct (usub n k) as [nk|]; [|easy]. cbn [bind]. destruct (umul rk (N.of_nat nk)) as [p|] eqn:P; [|easy]. cbn [bind].
  rewrite (wmul_ok _ _ _ P). destruct (idx row i); [|easy]. cbn [bind]. destruct (usub n i) as [ni|]; [|easy]. cbn [bind].
  destruct (idx _ ni); [|easy]. cbn [bind]. destruct (umul _ 2) as [d2|] eqn:D; [|easy]. cbn [bind].
  rewrite (wmul_ok _ _ _ D). destruct (uadd denom d2) as [d|] eqn:A; [|easy]. cbn [bind]. rewrite (wadd_ok _ _ _ A).
  intros E. split; [easy|]. apply Ok_inj in E. subst st'. cbn [snd]. eapply uadd_lt, A.
Qed.
Lemma pascal_loop_same n is : forall st st', (snd st < two64)%N -> pascal_loop n is st = Ok st' -> pascal_loop_release n is st = Ok st' /\ (snd st' < two64)%N.
Proof.
  induction is as [|i is IH]; intros st st' L; cbn [pascal_loop pascal_loop_release]; [intros E; apply Ok_inj in E; now subst|].
  destruct (pascal_step n st i) as [s|] eqn:S; [|easy]. apply pascal_step_same in S as [-> L']. cbn [bind]. now apply IH.
Qed.
Lemma pascal_row_same w r : pascal_row w = Ok r -> pascal_row_release w = Ok r.
Proof.
  unfold pascal_row, pascal_row_release. destruct (usub w 1) as [n|]; [|easy]. cbn [bind].
  destruct (pascal_loop _ _ _) as [[row d]|] eqn:E; [|easy]. apply pascal_loop_same in E as [-> L]; [|easy]. cbn [bind]. cbn [snd] in L.
  destruct (w mod 2 =? 1)%nat; [|easy]. destruct (idx row _) as [m|]; [|easy]. cbn [bind]. destruct (usubN d m) as [x|] eqn:U; [|easy]. cbn [bind].
  now rewrite (wsub_ok _ _ _ L U).
Qed.

Lemma u8_count_wraps l : u8_count_release l = (N.of_nat (trues l) mod 256)%N.
Proof.
  unfold u8_count_release. assert (G : forall k, (k < 256)%N -> fold_left (fun count (b : bool) => ((count + (if b then 1 else 0)) mod 256)%N) l k = ((k + N.of_nat (trues l)) mod 256)%N).
  { induction l as [|b l IH]; intros k Hk; cbn [fold_left].
    - unfold trues. cbn. rewrite N.add_0_r. symmetry. now apply N.mod_small.
    - rewrite IH by (apply N.mod_lt; lia). rewrite N.add_mod_idemp_l by lia. f_equal. unfold trues. cbn [filter]. destruct b; cbn [length]; lia. }
  rewrite G by lia. reflexivity.
Qed.
Lemma u8_count_same l c : u8_count l 0 = Ok c -> u8_count_release l = c.
Proof.
  rewrite u8_count_spec, u8_count_wraps by lia. destruct (N.ltb_spec (0 + N.of_nat (trues l)) 256); [|easy].
  intros E. apply Ok_inj in E. subst c. rewrite N.mod_small by lia. lia.
Qed.
Lemma win_len_same n m d : usub n m = Ok d -> win_len_release n m = Ok (d + 1)%nat.
Proof.
  unfold usub, win_len_release. destruct (Nat.leb_spec m n); [|easy]. intros E. apply Ok_inj in E. subst d.
  rewrite (proj2 (Nat.leb_le m (n + 1))) by lia. f_equal. lia.
Qed.
Lemma rmap_total {A B} (f : A -> result B) (g : A -> B) l r : (forall a b, f a = Ok b -> g a = b) -> rmap f l = Ok r -> map g l = r.
Proof.
  intros H. revert r; induction l as [|a l IH]; intros r; cbn [rmap map]; [intros E; now apply Ok_inj in E|].
  destruct (f a) as [b|] eqn:E; [|easy]. cbn [bind]. destruct (rmap f l) as [q|]; [|easy]. cbn [bind]. intros Q. apply Ok_inj in Q. subst r.
  now rewrite (H _ _ E), (IH q).
Qed.
Lemma rmap_weaken {A B} (f g : A -> result B) l r : (forall a b, f a = Ok b -> g a = Ok b) -> rmap f l = Ok r -> rmap g l = Ok r.
Proof.
  intros H. revert r; induction l as [|a l IH]; intros r; cbn [rmap]; [easy|].
  destruct (f a) as [b|] eqn:E; [|easy]. cbn [bind]. destruct (rmap f l) as [q|]; [|easy]. cbn [bind]. intros Q.
  now rewrite (H _ _ E), (IH q).
Qed.

Section Same.
  Context {F : Type} {FO : FOps F}.
  Lemma phi_same tol (ts : list F) m v : phi tol ts m = Ok v -> phi_release tol ts m = Ok v.
  Proof.
    unfold phi, phi_release. destruct (usub _ _) as [d|] eqn:U; [|easy]. cbn [bind]. rewrite (win_len_same _ _ _ U). cbn [bind].
    destruct (rmap _ _) as [cs|] eqn:E; [|easy]. cbn [bind].
    erewrite rmap_total; [|intros a b; apply u8_count_same|exact E]. easy.
  Qed.
  Lemma matches_same tol (ts : list F) m v : matches tol ts m = Ok v -> matches_release tol ts m = Ok v.
  Proof.
    unfold matches, matches_release. destruct (usub _ _) as [d|] eqn:U; [|easy]. cbn [bind]. rewrite (win_len_same _ _ _ U). cbn [bind].
    destruct (u8_count _ _) as [c|] eqn:E; [|easy]. cbn [bind]. now rewrite (u8_count_same _ _ E).
  Qed.

  (** Whatever the checked build returns, the unchecked build returns too: in every
      number system, for every input. *)
  Theorem pwma_release_same (data : list F) w o : pwma data w = Ok o -> pwma_release data w = Ok o.
  Proof. unfold pwma, pwma_release. destruct (pascal_row w) as [[row d]|] eqn:E; [|easy]. now rewrite (pascal_row_same _ _ E). Qed.
  Theorem approx_entropy_release_same (data : list F) w rl tol o : approx_entropy data w rl tol = Ok o -> approx_entropy_release data w rl tol = Ok o.
  Proof.
    unfold approx_entropy, approx_entropy_release. destruct (entropy_tol data tol) as [t|]; [|easy]. cbn [bind].
    unfold usub. destruct (Nat.leb_spec 1 w); [|easy]. cbn [bind]. destruct (rwindows w data) as [ws|]; [|easy]. cbn [bind].
    destruct (rmap _ ws) as [vs|] eqn:R; [|easy]. cbn [bind]. erewrite rmap_weaken; [|clear R|exact R]; [easy|].
    intros a b. cbn beta. destruct (phi t a _) as [x|] eqn:X; [|easy]. rewrite (phi_same _ _ _ _ X). cbn [bind].
    destruct (phi t a (unwrap_or rl 2%nat)) as [y|] eqn:Y; [|easy]. now rewrite (phi_same _ _ _ _ Y).
  Qed.
  Theorem sample_entropy_release_same (data : list F) w rl tol o : sample_entropy data w rl tol = Ok o -> sample_entropy_release data w rl tol = Ok o.
  Proof.
    unfold sample_entropy, sample_entropy_release. destruct (entropy_tol data tol) as [t|]; [|easy]. cbn [bind].
    unfold usub. destruct (Nat.leb_spec 1 w); [|easy]. cbn [bind]. destruct (rwindows w data) as [ws|]; [|easy]. cbn [bind].
    destruct (rmap _ ws) as [vs|] eqn:R; [|easy]. cbn [bind]. erewrite rmap_weaken; [|clear R|exact R]; [easy|].
    intros a b. cbn beta. destruct (matches t a _) as [x|] eqn:X; [|easy]. rewrite (matches_same _ _ _ _ X). cbn [bind].
    destruct (matches t a (unwrap_or rl 2%nat)) as [y|] eqn:Y; [|easy]. now rewrite (matches_same _ _ _ _ Y).
  Qed.
  Lemma hoeffd_win_same srt w p v : hoeffd_win srt w p = Ok v -> hoeffd_win_release srt w p = Ok v.
  Proof.
    unfold hoeffd_win, hoeffd_win_release. destruct (rank srt (fst p) _) as [rx|]; [|easy]. cbn [bind].
    destruct (rank srt (snd p) _) as [ry|]; [|easy]. cbn [bind]. destruct (hoeffd_sums _ _ _) as [[d1 d2] d3].
    destruct (usubN _ 1) as [w1|] eqn:E1; [|easy]. destruct (usubN _ 2) as [w2|] eqn:E2; [|easy]. destruct (usubN _ 3) as [w3|] eqn:E3; [|easy]. cbn [bind].
    destruct (umul w2 w3) as [p23|] eqn:P; [|easy]. cbn [bind]. destruct (usubN _ 4) as [w4|] eqn:E4; [|easy]. cbn [bind].
    destruct (umul _ w1) as [m1|] eqn:M1; [|easy]. cbn [bind]. destruct (umul m1 w2) as [m2|] eqn:M2; [|easy]. cbn [bind].
    destruct (umul m2 w3) as [m3|] eqn:M3; [|easy]. cbn [bind]. destruct (umul m3 w4) as [m4|] eqn:M4; [|easy]. cbn [bind].
    assert (L : (N.of_nat w < two64)%N).
    { pose proof (umul_lt _ _ _ M1) as L. unfold umul in M1. destruct (N.ltb_spec (N.of_nat w * w1) two64); [|easy].
      unfold usubN in E1, E4. destruct (N.leb_spec 4 (N.of_nat w)); [|easy]. destruct (N.leb_spec 1 (N.of_nat w)); [|easy]. apply Ok_inj in E1. nia. }
    rewrite (wsub_ok _ _ _ L E1), (wsub_ok _ _ _ L E2), (wsub_ok _ _ _ L E3), (wsub_ok _ _ _ L E4), (wmul_ok _ _ _ P).
    now rewrite (wmul_ok _ _ _ M1), (wmul_ok _ _ _ M2), (wmul_ok _ _ _ M3), (wmul_ok _ _ _ M4).
  Qed.
  Theorem hoeffd_release_same srt (x y : list F) w o : hoeffd srt x y w = Ok o -> hoeffd_release srt x y w = Ok o.
  Proof.
    unfold hoeffd, hoeffd_release. unfold usub. destruct (Nat.leb_spec 1 w); [|easy]. cbn [bind]. destruct (zip_windows w x y) as [ws|]; [|easy]. cbn [bind].
    destruct (rmap _ ws) as [vs|] eqn:R; [|easy]. cbn [bind]. erewrite rmap_weaken; [|clear R|exact R]; [easy|]. apply hoeffd_win_same.
  Qed.
End Same.

(** ** What the unchecked build prints *)
Local Open Scope R_scope.

(** The least significant byte of a count. *)
Definition low_byte (n : nat) : nat := (n mod 256)%nat.
(** Sample entropy of counts that have lost all but their low byte. *)
Definition sampen_byte (tol : R) (l : list R) (m : nat) : R :=
  let eps := / 2 ^ 52 in
  - ln ((2 * INR (low_byte (alike_pairs tol l (m + 1))) + eps) / (2 * INR (low_byte (alike_pairs tol l m)) + eps)).
(** A count of runs that is a multiple of 256 is taken for 0, whose logarithm is minus
    infinity; then so is phi. *)
Definition byte_zero (tol : R) (l : list R) (m : nat) : bool :=
  existsb (fun i => low_byte (alike_runs tol l m i) =? 0)%nat (seq 0 (length l + 1 - m)).
Definition phi_byte (tol : R) (l : list R) (m : nat) : R :=
  let runs := (length l + 1 - m)%nat in
  mean (map (fun i => ln (INR (low_byte (alike_runs tol l m i)) / INR runs)) (seq 0 runs)).
Definition apen_byte (tol : R) (l : list R) (m : nat) : xr :=
  match byte_zero tol l (m + 1), byte_zero tol l m with
  | false, false => Fin (Rabs (phi_byte tol l (m + 1) - phi_byte tol l m))
  | true, true => NaN
  | _, _ => Inf false
  end.

Lemma low_byte_N n : (N.of_nat n mod 256)%N = N.of_nat (low_byte n).
Proof. unfold low_byte. now rewrite Nat2N.inj_mod. Qed.
Lemma x_matches_release t l m : (0 < m <= length l + 1)%nat ->
  matches_release (Fin t) (map Fin l) m = Ok (Fin (2 * INR (low_byte (alike_pairs t l m)) + / 2 ^ 52)).
Proof.
  intros Hm. unfold matches_release, win_len_release. rewrite map_length, (proj2 (Nat.leb_le m (length l + 1))) by lia. cbn [bind].
  rewrite upper_pairs_spec, u8_count_wraps.
  assert (N1 : trues (map (fun '(i, j) => run_match (Fin t) (run (map Fin l) m i) (run (map Fin l) m j)) (pairs_below (length l + 1 - m))) = alike_pairs t l m).
  { unfold alike_pairs. rewrite trues_count. apply count_ext_in. intros [i j] Hp. apply In_pairs in Hp. apply x_run_match; lia. }
  rewrite N1, low_byte_N, x_ofN, x_lit, x_mul. change feps with (Fin (/ IZR (2 ^ 52))). rewrite x_add. do 4 f_equal. lra.
Qed.
Lemma rmap_windows_ok {B} (g : list xr -> result B) (f : list R -> B) (l : list R) w : (0 < w)%nat ->
  (forall x, length x = w -> g (map Fin x) = Ok (f x)) -> rmap g (windows w (map Fin l)) = Ok (map f (windows w l)).
Proof.
  intros Hw H. rewrite windows_map. assert (L : forall x, In x (windows w l) -> length x = w) by (intros x Hx; eapply windows_length; eauto).
  revert L. generalize (windows w l). intros q L. induction q as [|x q IH]; [easy|]. cbn [map rmap]. rewrite H by (apply L; now left). cbn [bind].
  rewrite IH by (intros; apply L; now right). easy.
Qed.
Lemma tol_ok l tol : l <> [] -> entropy_tol (map Fin l) (option_map Fin tol) = Ok (Fin (tolerance_of l tol)).
Proof.
  intros Hl. assert (E : exists t, entropy_tol (map Fin l) (option_map Fin tol) = Ok t).
  { destruct tol; cbn [option_map entropy_tol]; [eauto|]. unfold std_dev_raw, rwindows. rewrite map_length.
    destruct (Nat.eqb_spec (length l) 0) as [Z|Z]; [destruct l; easy|]. cbn [bind]. rewrite windows_whole by apply map_length. cbn. eauto. }
  destruct E as [t E]. rewrite E. f_equal. now apply x_entropy_tol.
Qed.

(** The unchecked build returns for every run length up to the window, whatever the
    number of matching runs, and only the low byte of that number counts. *)
Theorem sample_entropy_release_real l w rl tol :
  l <> [] -> (0 < unwrap_or rl 2%nat <= w)%nat ->
  exists o, sample_entropy_release (map Fin l) w rl (option_map Fin tol) = Ok o /\
  aligned o (length l) (w - 1) NaN (fun i => Fin (sampen_byte (tolerance_of l tol) (win w l i) (unwrap_or rl 2%nat))).
Proof.
  intros Hl Hm. unfold sample_entropy_release. set (m := unwrap_or rl 2%nat) in *. rewrite tol_ok by easy. cbn [bind].
  unfold rwindows. destruct (Nat.eqb_spec w 0); [lia|]. cbn [bind].
  set (f := fun x => Fin (sampen_byte (tolerance_of l tol) x m)).
  match goal with |- context [rmap ?g _] => assert (G : forall x, length x = w -> g (map Fin x) = Ok (f x)) end.
  { intros x Lx. cbn beta. rewrite !x_matches_release by lia. cbn [bind].
    assert (Q : forall k, 0 < 2 * INR k + / 2 ^ 52) by (intros k; pose proof (pos_INR k); assert (0 < / 2 ^ 52) by (apply Rinv_0_lt_compat, pow_lt; lra); lra).
    rewrite x_div by (apply Rgt_not_eq, Q). rewrite x_ln by (apply Rdiv_lt_0_compat; apply Q). reflexivity. }
  rewrite (rmap_windows_ok _ f) by (try lia; exact G). cbn [bind]. eexists; split; [reflexivity|].
  eapply rmap_windows_aligned with (f := f); [lia| |exact (rmap_windows_ok _ f l w ltac:(lia) G)].
  intros x v Lx E. apply Ok_inj. rewrite <- E. exact (G x Lx).
Qed.

Lemma x_fold_minus_inf (f : N -> xr) l : forall a, (exists x, a = Fin x) \/ a = Inf true ->
  (forall c, In c l -> (exists x, f c = Fin x) \/ f c = Inf true) -> ((exists c, In c l /\ f c = Inf true) \/ a = Inf true) ->
  fold_left (fun acc c => fadd acc (f c)) l a = Inf true.
Proof.
  induction l as [|c l IH]; intros a Ha Hf Hi; cbn [fold_left]; [destruct Hi as [(c & [] & _)| ->]; easy|].
  apply IH; [| |].
  - destruct Ha as [[x ->]| ->]; destruct (Hf c (or_introl eq_refl)) as [[y ->]| ->]; cbn; eauto.
  - intros; apply Hf; now right.
  - destruct Hi as [(d & [->|Hd] & E)| ->].
    + right. rewrite E. destruct Ha as [[x ->]| ->]; easy.
    + left. eauto.
    + right. destruct (Hf c (or_introl eq_refl)) as [[y ->]| ->]; easy.
Qed.
Lemma x_phi_release t l m : (0 < m <= length l)%nat ->
  phi_release (Fin t) (map Fin l) m = Ok (if byte_zero t l m then Inf true else Fin (phi_byte t l m)).
Proof.
  intros Hm. unfold phi_release, win_len_release. rewrite map_length, (proj2 (Nat.leb_le m (length l + 1))) by lia. cbn [bind]. f_equal.
  unfold byte_zero, phi_byte. set (n := (length l + 1 - m)%nat). assert (Hn : 0 < INR n) by (apply lt_0_INR; lia).
  match goal with |- context [map ?g (seq 0 n)] => replace (map g (seq 0 n)) with (map (fun i => N.of_nat (low_byte (alike_runs t l m i))) (seq 0 n)) end.
  2:{ apply map_ext_in. intros i Hi. apply in_seq in Hi. rewrite u8_count_wraps, <- low_byte_N. do 2 f_equal. symmetry.
      rewrite <- x_near by lia. unfold near. rewrite map_length. do 3 f_equal. lia. }
  rewrite x_nat, x_lit. destruct (existsb _ (seq 0 n)) eqn:E.
  - rewrite (x_fold_minus_inf (fun c => fln (fdiv (fofN c) (Fin (INR n))))).
    + cbn. destruct (Rltb (INR n) 0) eqn:L; [|easy]. unfold Rltb in L. destruct (Rlt_dec (INR n) 0); [lra|easy].
    + eauto.
    + intros c Hc. apply in_map_iff in Hc as (i & <- & Hi). rewrite x_ofN, x_div by lra.
      destruct (low_byte (alike_runs t l m i)) as [|k] eqn:K.
      * right. cbn [INR]. unfold Rdiv. rewrite Rmult_0_l. cbn. unfold Rltb, Req. destruct (Rlt_dec 0 0); [lra|]. destruct (Req_EM_T 0 0); easy.
      * left. eexists. apply x_ln. apply Rdiv_lt_0_compat; [apply lt_0_INR; lia|easy].
    + left. apply existsb_exists in E as (i & Hi & K). apply Nat.eqb_eq in K. exists (N.of_nat (low_byte (alike_runs t l m i))). split; [apply in_map_iff; eauto|].
      rewrite K, x_ofN, x_div by lra. cbn [INR]. unfold Rdiv. rewrite Rmult_0_l. cbn. unfold Rltb, Req. destruct (Rlt_dec 0 0); [lra|]. destruct (Req_EM_T 0 0); easy.
  - rewrite (x_fold_add (fun c => fln (fdiv (fofN c) (Fin (INR n)))) (fun c => ln (INR (N.to_nat c) / INR n))).
    2:{ intros c Hc. apply in_map_iff in Hc as (i & <- & Hi). rewrite x_ofN, Nat2N.id, x_div by lra. apply x_ln.
        apply Rdiv_lt_0_compat; [|easy]. apply lt_0_INR. destruct (low_byte (alike_runs t l m i)) eqn:K; [|lia].
        assert (T : existsb (fun i => low_byte (alike_runs t l m i) =? 0)%nat (seq 0 n) = true) by (apply existsb_exists; exists i; split; [easy|now rewrite K]). congruence. }
    rewrite x_div by lra. f_equal. unfold mean. rewrite !map_map, map_length, seq_length. f_equal.
    rewrite (map_ext _ (fun i => ln (INR (low_byte (alike_runs t l m i)) / INR n))) by (intros i; now rewrite Nat2N.id). lra.
Qed.
Theorem approx_entropy_release_real l w rl tol :
  l <> [] -> (0 < unwrap_or rl 2%nat < w)%nat ->
  exists o, approx_entropy_release (map Fin l) w rl (option_map Fin tol) = Ok o /\
  aligned o (length l) (w - 1) NaN (fun i => apen_byte (tolerance_of l tol) (win w l i) (unwrap_or rl 2%nat)).
Proof.
  intros Hl Hm. unfold approx_entropy_release. set (m := unwrap_or rl 2%nat) in *. rewrite tol_ok by easy. cbn [bind].
  unfold rwindows. destruct (Nat.eqb_spec w 0); [lia|]. cbn [bind].
  set (f := fun x => apen_byte (tolerance_of l tol) x m).
  match goal with |- context [rmap ?g _] => assert (G : forall x, length x = w -> g (map Fin x) = Ok (f x)) end.
  { intros x Lx. cbn beta. rewrite !x_phi_release by lia. cbn [bind]. unfold f, apen_byte.
    destruct (byte_zero _ x (m + 1)), (byte_zero _ x m); reflexivity. }
  rewrite (rmap_windows_ok _ f) by (try lia; exact G). cbn [bind]. eexists; split; [reflexivity|].
  eapply rmap_windows_aligned with (f := f); [lia| |exact (rmap_windows_ok _ f l w ltac:(lia) G)].
  intros x v Lx E. apply Ok_inj. rewrite <- E. exact (G x Lx).
Qed.

(** *** Unchanged prices *)
Lemma alike_flat t x n m p : 0 <= t -> (fst p + m <= n)%nat -> (snd p + m <= n)%nat -> alike t (repeat x n) m p = true.
Proof.
  intros Ht H1 H2. unfold alike. apply forallb_forall. intros k Hk. apply in_seq in Hk. apply Rleb_true.
  rewrite !(nth_indep (repeat x n) 0 x), !nth_repeat by (rewrite repeat_length; lia). rewrite Rminus_diag_eq, Rabs_R0 by easy. easy.
Qed.
Lemma count_all {A} (p : A -> bool) l : (forall a, In a l -> p a = true) -> count p l = length l.
Proof. intros H. unfold count. induction l as [|a l IH]; [easy|]. cbn [filter]. rewrite H by now left. cbn. now rewrite IH by (intros; apply H; now right). Qed.
Lemma alike_runs_flat t x n m i : 0 <= t -> (i + m <= n)%nat -> alike_runs t (repeat x n) m i = (n + 1 - m)%nat.
Proof.
  intros Ht Hi. unfold alike_runs. rewrite repeat_length, count_all; [apply seq_length|]. intros j Hj. apply in_seq in Hj. apply alike_flat; cbn; lia || easy.
Qed.
Lemma alike_pairs_flat t x n m : 0 <= t -> (m <= n)%nat -> (2 * alike_pairs t (repeat x n) m = (n + 1 - m) * (n - m))%nat.
Proof.
  intros Ht Hm. unfold alike_pairs. rewrite repeat_length, count_all.
  - rewrite <- upper_pairs_spec, length_upper_pairs. f_equal. lia.
  - intros p Hp. destruct p as [i j]. apply In_pairs in Hp. apply alike_flat; cbn; lia || easy.
Qed.

(** 34 unchanged prices hold 496 pairs of matching runs of length 3 and 528 of length
    2.  Their low bytes are 240 and 16: the unchecked build prints a sample entropy
    below -2, where the entropy of such prices is 0 up to the guard against a division
    by zero. *)
Theorem sample_entropy_release_negative l i x : (33 <= i < length l)%nat -> win 34 l i = repeat x 34 ->
  exists o v, sample_entropy_release (map Fin l) 34 None (Some (Fin 0)) = Ok o /\
  nth_error o i = Some (Fin v) /\ v < -2 /\ Rabs (sampen 0 (win 34 l i) 2) < 1 / 10.
Proof.
  intros Hi W. destruct (sample_entropy_release_real l 34 None (Some 0)) as (o & E & (A1 & A2 & A3)); [destruct l; [cbn in Hi; lia|easy]|cbn; lia|].
  exists o, (sampen_byte 0 (win 34 l i) 2). split; [exact E|]. split; [apply A3; lia|]. rewrite W.
  pose proof (alike_pairs_flat 0 x 34 3 ltac:(lra) ltac:(lia)) as P3. pose proof (alike_pairs_flat 0 x 34 2 ltac:(lra) ltac:(lia)) as P2.
  assert (B3 : alike_pairs 0 (repeat x 34) 3 = 496%nat) by lia. assert (B2 : alike_pairs 0 (repeat x 34) 2 = 528%nat) by lia.
  unfold sampen_byte, sampen. cbn [Nat.add]. rewrite B3, B2. 
  assert (L3 : low_byte 496 = 240%nat) by (vm_compute; reflexivity). assert (L2 : low_byte 528 = 16%nat) by (vm_compute; reflexivity). rewrite L3, L2.
  assert (N : forall n z, Z.of_nat n = z -> INR n = IZR z) by (intros n z <-; apply INR_IZR_INZ).
  rewrite (N 496%nat 496%Z), (N 528%nat 528%Z), (N 240%nat 240%Z), (N 16%nat 16%Z) by (vm_compute; reflexivity). clear N L2 L3 B2 B3 P2 P3. set (e := / 2 ^ 52).
  assert (E0 : 0 < e < / 1000) by (unfold e; split; [apply Rinv_0_lt_compat, pow_lt; lra|apply Rinv_lt_contravar; [apply Rmult_lt_0_compat; [lra|apply pow_lt; lra]|]]; lra).
  split.
  - assert (exp 2 < (2 * 240 + e) / (2 * 16 + e)).
    { apply Rlt_trans with 10. { replace 2 with (1 + 1) by lra. rewrite exp_plus. pose proof exp_le_3. pose proof (exp_pos 1). pose proof (Rmult_le_compat (exp 1) 3 (exp 1) 3). lra. } 
      apply (Rmult_lt_reg_r (2 * 16 + e)); [lra|]. unfold Rdiv. rewrite Rmult_assoc, Rinv_l by lra. lra. }
    apply ln_increasing in H; [|apply exp_pos]. rewrite ln_exp in H. lra.
  - assert (U : 0 < (2 * 496 + e) / (2 * 528 + e) < 1).
    { split; [apply Rdiv_lt_0_compat; lra|]. apply (Rmult_lt_reg_r (2 * 528 + e)); [lra|]. unfold Rdiv. rewrite Rmult_assoc, Rinv_l by lra. lra. }
    assert (V : / ((2 * 496 + e) / (2 * 528 + e)) < exp (1 / 10)).
    { apply Rlt_trans with (1 + 1 / 10); [|apply exp_ineq1; lra]. rewrite Rinv_div. apply (Rmult_lt_reg_r (2 * 496 + e)); [lra|]. unfold Rdiv. rewrite Rmult_assoc, Rinv_l by lra. lra. }
    apply ln_increasing in V; [|apply Rinv_0_lt_compat; lra]. rewrite ln_exp, ln_Rinv in V by lra.
    destruct U as [U0 U]. apply ln_increasing in U; [|easy]. rewrite ln_1 in U. apply Rabs_def1; lra.
Qed.

(** Unchanged prices: each run matches all the others.  When there are 256 runs (257
    prices and runs of length 2), or a multiple of 256, the counter comes back to 0,
    whose logarithm is minus infinity: the unchecked build prints plus infinity, where
    the approximate entropy is 0. *)
Lemma pincus_phi_flat t x n m : 0 <= t -> (m <= n)%nat -> pincus_phi t (repeat x n) m = 0.
Proof.
  intros Ht Hm. unfold pincus_phi. rewrite repeat_length. rewrite (map_ext_in _ (fun _ => 0)).
  - unfold mean. rewrite Rsum_const. unfold Rdiv. now rewrite Rmult_0_r, Rmult_0_l.
  - intros j Hj. apply in_seq in Hj. rewrite alike_runs_flat by (easy || lia). unfold Rdiv. rewrite Rinv_r by (apply not_0_INR; lia). apply ln_1.
Qed.
Lemma byte_zero_flat t x n m : 0 <= t -> (m <= n)%nat -> byte_zero t (repeat x n) m = (low_byte (n + 1 - m) =? 0)%nat.
Proof.
  intros Ht Hm. apply Bool.eq_iff_eq_true. unfold byte_zero. rewrite existsb_exists, repeat_length. split.
  - intros (j & Hj & K). apply in_seq in Hj. rewrite alike_runs_flat in K by (easy || lia). exact K.
  - intros K. exists 0%nat. split; [apply in_seq; lia|]. rewrite alike_runs_flat by (easy || lia). exact K.
Qed.
Theorem approx_entropy_release_infinite l w rl tol i x : let m := unwrap_or rl 2%nat in
  (0 < m < w)%nat -> 0 <= tol -> ((w + 1 - m) mod 256 = 0)%nat -> (w - 1 <= i < length l)%nat -> win w l i = repeat x w ->
  exists o, approx_entropy_release (map Fin l) w rl (Some (Fin tol)) = Ok o /\
  nth_error o i = Some (Inf false) /\ apen tol (win w l i) m = 0.
Proof.
  intros m Hm Ht H0 Hi W. destruct (approx_entropy_release_real l w rl (Some tol)) as (o & E & (A1 & A2 & A3)); [destruct l; [cbn in Hi; lia|easy]|exact Hm|].
  exists o. split; [exact E|]. split; [rewrite A3 by lia; f_equal|]; rewrite W.
  - fold m. unfold tolerance_of. cbn [unwrap_or]. unfold apen_byte. rewrite !byte_zero_flat by (easy || lia).
    change (low_byte (w + 1 - m)) with ((w + 1 - m) mod 256)%nat. rewrite H0. cbn [Nat.eqb].
    replace (w + 1 - (m + 1))%nat with (w - m)%nat by lia. destruct (Nat.eqb_spec (low_byte (w - m)) 0) as [K|K]; [|easy].
    exfalso. unfold low_byte in K. replace (w + 1 - m)%nat with (w - m + 1)%nat in H0 by lia.
    pose proof (Nat.div_mod (w - m) 256 ltac:(lia)). pose proof (Nat.div_mod (w - m + 1) 256 ltac:(lia)). lia.
  - unfold apen. rewrite !pincus_phi_flat by (easy || lia). rewrite Rminus_diag_eq, Rabs_R0 by easy. easy.
Qed.

(** *** Hoeffding's D *)
Lemma wsub_low W k : (k <= W < two64)%N -> wsub W k = (W - k)%N.
Proof. intros H. apply wsub_ok; [easy|]. unfold usubN. now rewrite (proj2 (N.leb_le k W)) by easy. Qed.
(** The divisor of Hoeffding's D for windows of [w], and what 64 bits keep of it. *)
Definition d_divisor (w : nat) : N := (N.of_nat w * N.of_nat (w - 1) * N.of_nat (w - 2) * N.of_nat (w - 3) * N.of_nat (w - 4))%N.
Definition low_word (n : N) : N := (n mod two64)%N.
Lemma wmul_low a b : wmul (low_word a) b = low_word (a * b).
Proof. unfold wmul, low_word. apply N.mul_mod_idemp_l. easy. Qed.
Lemma x_hoeffd_sums x y w : length x = w -> length y = w ->
  let r := avg_ranks x in let s := avg_ranks y in
  hoeffd_sums (map Fin r) (map Fin s) (map (hoeffd_q (map Fin r) (map Fin s)) (seq 0 w)) =
  (Fin (Rsum (map (fun i => (joint_rank r s i - 1) * (joint_rank r s i - 2)) (seq 0 w))),
   Fin (Rsum (map (fun i => (nth i r 0 - 1) * (nth i r 0 - 2) * (nth i s 0 - 1) * (nth i s 0 - 2)) (seq 0 w))),
   Fin (Rsum (map (fun i => (nth i r 0 - 2) * (nth i s 0 - 2) * (joint_rank r s i - 1)) (seq 0 w)))).
Proof.
  intros Lx Ly r s.
  assert (Lr : length r = w) by (unfold r, avg_ranks; now rewrite map_length).
  assert (Ls : length s = w) by (unfold s, avg_ranks; now rewrite map_length). clearbody r s.
  rewrite (map_ext_in _ (fun i => Fin (joint_rank r s i))) by (intros i Hi; apply in_seq in Hi; apply (x_hoeffd_q r s w); lia).
  unfold hoeffd_sums. rewrite !x_lit.
  rewrite fold_left_map, (x_fold_add _ (fun i => (joint_rank r s i - 1) * (joint_rank r s i - 2))) by (intros; xr; reflexivity).
  rewrite combine_map, (combine_seq r s w), map_map, fold_left_map by easy. cbn [fst snd].
  rewrite (x_fold_add _ (fun i => (nth i r 0 - 1) * (nth i r 0 - 2) * (nth i s 0 - 1) * (nth i s 0 - 2))) by (intros; xr; reflexivity).
  assert (Z : zip3 (map (fun i => Fin (joint_rank r s i)) (seq 0 w)) (map Fin r) (map Fin s) =
    map (fun i => (Fin (joint_rank r s i), Fin (nth i r 0), Fin (nth i s 0))) (seq 0 w)).
  { unfold zip3. apply nth_error_ext. intros i. rewrite !nth_error_combine, !nth_error_map'.
    destruct (le_lt_dec w i) as [H|H].
    - rewrite (proj2 (nth_error_None (seq 0 w) i)); [easy|]; rewrite seq_length; lia.
    - rewrite nth_error_seq, !(nth_error_nth' _ 0) by lia. reflexivity. }
  rewrite Z, fold_left_map.
  rewrite (x_fold_add _ (fun i => (nth i r 0 - 2) * (nth i s 0 - 2) * (joint_rank r s i - 1))) by (intros; xr; reflexivity).
  now rewrite !Rplus_0_l.
Qed.
Lemma low_divisor w : (4 <= w)%nat -> (N.of_nat w < two64)%N ->
  let W := N.of_nat w in wmul (wmul (wmul (wmul W (wsub W 1)) (wsub W 2)) (wsub W 3)) (wsub W 4) = low_word (d_divisor w).
Proof.
  intros H4 L W. rewrite !wsub_low by (unfold W; lia).
  change (wmul W (W - 1)) with (low_word (W * (W - 1))). rewrite !wmul_low. unfold d_divisor. f_equal. unfold W. now rewrite !Nat2N.inj_sub.
Qed.
Lemma x_ofN' (n : N) : fofN n = Fin (IZR (Z.of_N n)).
Proof. reflexivity. Qed.
Lemma x_hoeffd_win_release srt w x y : length x = w -> length y = w -> (5 <= w)%nat -> (N.of_nat w < 2 ^ 32)%N ->
  low_word (d_divisor w) <> 0%N -> (forall l : list R, sorts (srt (map Fin l)) (map Fin l)) ->
  hoeffd_win_release srt w (map Fin x, map Fin y) = Ok (Fin (hoeffding_d x y * (IZR (Z.of_N (d_divisor w)) / IZR (Z.of_N (low_word (d_divisor w)))))).
Proof.
  intros Lx Ly Hw H32 Hd Sr. unfold hoeffd_win_release. cbn [fst snd].
  rewrite !x_rank_avg by (try apply Sr; intros N; rewrite N in *; cbn in *; lia). cbn [bind].
  rewrite (x_hoeffd_sums x y w) by easy.
  assert (L64 : (N.of_nat w < two64)%N) by (eapply N.lt_trans; [exact H32|reflexivity]).
  rewrite low_divisor by (easy || lia).
  rewrite !wsub_low by lia.
  replace (wmul (N.of_nat w - 2) (N.of_nat w - 3)) with ((N.of_nat w - 2) * (N.of_nat w - 3))%N.
  2:{ symmetry. apply N.mod_small. change two64 with (2 ^ 32 * 2 ^ 32)%N. apply N.mul_lt_mono; lia. }
  rewrite !x_ofN', !N2Z.inj_mul, !mult_IZR. set (D := IZR (Z.of_N (low_word _))).
  assert (D0 : D <> 0) by (unfold D; intros E; apply eq_IZR in E; lia).
  change 2%N with (N.of_nat 2). change 3%N with (N.of_nat 3).
  rewrite !IZR_N_sub by lia. 
  assert (I : 5 <= INR w) by (replace 5 with (INR 5) by (cbn; lra); now apply le_INR).
  rewrite !x_lit, !x_mul, !x_add, x_sub, x_mul, x_div by easy.
  do 2 f_equal. unfold hoeffding_d. rewrite Lx. 
  assert (P : IZR (Z.of_N (d_divisor w)) = INR w * (INR w - 1) * (INR w - 2) * (INR w - 3) * (INR w - 4)).
  { unfold d_divisor. rewrite !N2Z.inj_mul, !mult_IZR, !nat_N_Z, <- !INR_IZR_INZ, !minus_INR by lia. cbn [INR]. ring. }
  rewrite P. cbn [INR]. field. repeat split; lra.
Qed.

(** For windows whose five-fold product [w (w-1) (w-2) (w-3) (w-4)] passes [2^64] the
    unchecked build divides by the low 64 bits of it: D comes out multiplied by the
    quotient of the two. *)
Lemma hoeffd_release_by srt a b w (f : list R -> list R -> xr) : (0 < w)%nat ->
  (forall x y, length x = w -> length y = w -> hoeffd_win_release srt w (map Fin x, map Fin y) = Ok (f x y)) ->
  exists o, hoeffd_release srt (map Fin a) (map Fin b) w = Ok o /\
  aligned o (bars2 a b) (w - 1) NaN (fun i => f (win w a i) (win w b i)).
Proof.
  intros Hw H. unfold hoeffd_release. rewrite zip_windows_val by lia. cbn [bind].
  set (g := fun p : list R * list R => f (fst p) (snd p)).
  assert (E : rmap (hoeffd_win_release srt w) (combine (windows w (map Fin a)) (windows w (map Fin b))) = Ok (map g (combine (windows w a) (windows w b)))).
  { rewrite !windows_map, combine_map.
    assert (L : forall p, In p (combine (windows w a) (windows w b)) -> length (fst p) = w /\ length (snd p) = w).
    { intros [x y] Hp. split; eapply windows_length; try lia; [eapply in_combine_l|eapply in_combine_r]; eauto. }
    revert L. generalize (combine (windows w a) (windows w b)). intros ps. induction ps as [|p ps IH]; intros L; [easy|].
    cbn [map rmap]. destruct (L p (or_introl eq_refl)). rewrite H by easy. cbn [bind]. rewrite IH by (intros q Q; apply L; now right). reflexivity. }
  rewrite E. cbn [bind]. eexists; split; [reflexivity|]. change (@fnan xr XR) with NaN.
  change (aligned (pad (w - 1) NaN ++ map g (combine (windows w a) (windows w b))) (bars2 a b) (w - 1) NaN (fun i => g (win w a i, win w b i))).
  unfold bars2. apply aligned_pad_map.
  - rewrite combine_length, !length_windows. lia.
  - intros i Hi. exists (win w a i, win w b i). split; [|easy].
    rewrite nth_error_combine, !nth_error_windows_win by lia. reflexivity.
Qed.
Theorem hoeffd_release_real srt a b w : (5 <= w)%nat -> (N.of_nat w < 2 ^ 32)%N -> low_word (d_divisor w) <> 0%N ->
  (forall l : list R, sorts (srt (map Fin l)) (map Fin l)) ->
  exists o, hoeffd_release srt (map Fin a) (map Fin b) w = Ok o /\
  aligned o (bars2 a b) (w - 1) NaN (fun i => Fin (hoeffding_d (win w a i) (win w b i) * (IZR (Z.of_N (d_divisor w)) / IZR (Z.of_N (low_word (d_divisor w)))))).
Proof.
  intros Hw H32 Hd Sr. apply (hoeffd_release_by srt a b w (fun x y => Fin (hoeffding_d x y * _))); [lia|].
  intros x y Lx Ly. now apply x_hoeffd_win_release.
Qed.
(** Windows of 1 to 4 bars: the divisor is 0.  The checked build panics for 1 to 3; the
    unchecked build returns, and no value is a number. *)
Theorem hoeffd_release_small srt a b w : (1 <= w <= 4)%nat ->
  (forall l : list R, sorts (srt (map Fin l)) (map Fin l)) ->
  exists o, hoeffd_release srt (map Fin a) (map Fin b) w = Ok o /\ length o = Nat.max (w - 1) (bars2 a b) /\
  forall i r, nth_error o i <> Some (Fin r).
Proof.
  intros Hw Sr.
  set (f := fun x y => match hoeffd_win_release srt w (map Fin x, map Fin y) with Ok v => v | Panic => NaN end).
  assert (G : forall x y, length x = w -> length y = w -> hoeffd_win_release srt w (map Fin x, map Fin y) = Ok (f x y) /\ forall r, f x y <> Fin r).
  { intros x y Lx Ly. unfold f. unfold hoeffd_win_release. cbn [fst snd].
    rewrite !x_rank_avg by (try apply Sr; intros N; rewrite N in *; cbn in *; lia). cbn [bind].
    rewrite (x_hoeffd_sums x y w) by easy. cbn [bind]. split; [reflexivity|]. intros r.
    match goal with |- context [fdiv _ (fofN ?m)] => replace m with 0%N by (destruct w as [|[|[|[|[|w]]]]]; [lia| | | | |lia]; vm_compute; reflexivity) end.
    rewrite !x_ofN', !x_lit, !x_mul, !x_add, x_sub, x_mul. cbn. unfold Req. destruct (Req_EM_T 0 0); [|easy]. destruct (Req_EM_T _ 0); easy. }
  destruct (hoeffd_release_by srt a b w f) as (o & E & (A1 & A2 & A3)); [lia|intros; now apply G|].
  exists o. split; [easy|]. split; [exact A1|]. intros i r.
  destruct (le_lt_dec (w - 1) i) as [Hi|Hi].
  - destruct (le_lt_dec (bars2 a b) i) as [Hb|Hb].
    + rewrite (proj2 (nth_error_None o i)); [easy|]. lia.
    + rewrite A3 by lia. intros Q. injection Q. apply G; apply length_win; unfold bars2 in *; lia.
  - rewrite A2 by lia. easy.
Qed.

(** *** Pascal's weighted average *)
Lemma pascal_loop_total n is : forall st, length (fst st) = S n -> (forall i, In i is -> (1 <= i <= n)%nat) ->
  exists st', pascal_loop_release n is st = Ok st' /\ length (fst st') = S n.
Proof.
  induction is as [|i is IH]; intros [row d] L H; cbn [pascal_loop_release]; [eauto|]. cbn [fst] in L.
  pose proof (H i (or_introl eq_refl)) as Hi. unfold pascal_step_release, usub, idx.
  rewrite (proj2 (Nat.leb_le 1 i)) by lia. cbn [bind].
  destruct (nth_error row (i - 1)) eqn:E1; [|apply nth_error_None in E1; lia]. cbn [bind].
  rewrite (proj2 (Nat.leb_le (i - 1) n)) by lia. cbn [bind].
  destruct (nth_error row i) eqn:E2; [|apply nth_error_None in E2; lia]. cbn [bind].
  rewrite (proj2 (Nat.leb_le i n)) by lia. cbn [bind].
  destruct (nth_error (upd row i _) (n - i)) eqn:E3; [|apply nth_error_None in E3; rewrite length_upd in E3; lia]. cbn [bind].
  apply IH; [cbn [fst]; now rewrite !length_upd|]. intros; apply H; now right.
Qed.
Lemma pascal_row_total w : (0 < w)%nat -> exists row d, pascal_row_release w = Ok (row, d) /\ length row = w.
Proof.
  intros Hw. unfold pascal_row_release, usub. rewrite (proj2 (Nat.leb_le 1 w)) by lia. cbn [bind].
  destruct (pascal_loop_total (w - 1) (seq 1 ((w - 1) / 2)) (repeat 1%N w, 2%N)) as ([row d] & E & L).
  - cbn [fst]. rewrite repeat_length. lia.
  - intros i Hi. apply in_seq in Hi. pose proof (Nat.div_le_upper_bound (w - 1) 2 (w - 1)). lia.
  - rewrite E. cbn [bind fst] in *. destruct (w mod 2 =? 1)%nat; [|exists row, d; split; [easy|lia]].
    unfold idx. destruct (nth_error row ((w - 1) / 2)) eqn:E1; [cbn [bind]; do 2 eexists; split; [reflexivity|lia]|].
    apply nth_error_None in E1. pose proof (Nat.div_le_upper_bound (w - 1) 2 (w - 1)). lia.
Qed.
(** The unchecked build returns for every window but 0. *)
Theorem pwma_release_total {F} {FO : FOps F} (data : list F) w :
  (w = 0%nat /\ pwma_release data w = Panic) \/
  (0 < w)%nat /\ exists o, pwma_release data w = Ok o /\ length o = Nat.max (w - 1) (length data).
Proof.
  destruct (Nat.eq_dec w 0) as [->|Hw]; [left; now split|]. right. split; [lia|]. unfold pwma_release.
  destruct (pascal_row_total w ltac:(lia)) as (row & d & -> & L). cbn [bind]. unfold usub, rwindows.
  rewrite (proj2 (Nat.leb_le 1 w)) by lia. cbn [bind]. destruct (Nat.eqb_spec w 0); [easy|]. cbn [bind]. eexists; split; [reflexivity|].
  rewrite app_length, length_pad, map_length, length_windows. lia.
Qed.

Lemma x_dot_flat c d row : d <> 0 -> dot (map (fun k => fdiv (fofN k) (Fin d)) row) (repeat (Fin c) (length row)) =
  Fin (c * IZR (Z.of_N (fold_right N.add 0%N row)) / d).
Proof.
  intros Hd. unfold dot.
  replace (map (fun '(value, weight) => fmul value weight) (combine (repeat (Fin c) (length row)) (map (fun k => fdiv (fofN k) (Fin d)) row)))
    with (map Fin (map (fun k => c * (IZR (Z.of_N k) / d)) row)).
  - rewrite x_fsum. f_equal. induction row as [|k row IH]; [cbn; unfold Rdiv; ring|]. cbn [map fold_right]. rewrite Rsum_cons, IH, N2Z.inj_add, plus_IZR. field. easy.
  - induction row as [|k row IH]; [easy|]. cbn [map length repeat combine]. now rewrite IH, x_ofN', x_div, x_mul.
Qed.
(** The weights of the window of 128 bars add up to more than three times their divisor:
    where the price has been constant the unchecked build prints more than three times
    that price. *)
Theorem pwma_release_outside l i c : (127 <= i < length l)%nat -> win 128 l i = repeat c 128 -> 0 < c ->
  exists o v, pwma_release (map Fin l) 128 = Ok o /\ nth_error o i = Some (Fin v) /\ 3 * c < v.
Proof.
  intros Hi W Hc. unfold pwma_release.
  assert (P : exists row d, pascal_row_release 128 = Ok (row, d) /\ length row = 128%nat /\ (0 < d)%N /\ (3 * d < fold_right N.add 0%N row)%N).
  { eexists _, _. split; [vm_compute; reflexivity|]. split; [vm_compute; reflexivity|]. split; vm_compute; reflexivity. }
  destruct P as (row & d & -> & L & D0 & D3). cbn [bind].
  change (usub 128 1) with (Ok 127%nat). cbn [bind]. unfold rwindows. destruct (Nat.eqb_spec 128 0); [lia|]. cbn [bind].
  do 2 eexists. split; [reflexivity|]. split.
  - rewrite nth_error_app2 by (rewrite length_pad; lia). rewrite length_pad.
    replace (i - 127)%nat with (i - (128 - 1))%nat by lia.
    rewrite nth_error_map, (nth_error_windows_win (w := 128)) by (rewrite ?map_length; lia). cbn [option_map]. f_equal.
    assert (M : forall k, map Fin (repeat c k) = repeat (Fin c) k) by (intros k; induction k as [|k IHn]; [easy|cbn [repeat map]; now rewrite IHn]).
    rewrite win_map, W, M, <- L, x_ofN'. apply x_dot_flat. apply not_0_IZR. lia.
  - assert (IZR (Z.of_N d) > 0) by (apply Rlt_gt, IZR_lt; lia).
    assert (3 * IZR (Z.of_N d) < IZR (Z.of_N (fold_right N.add 0%N row))) by (rewrite <- mult_IZR; apply IZR_lt; lia).
    apply (Rmult_lt_reg_r (IZR (Z.of_N d))); [lra|]. set (S := IZR (Z.of_N (fold_right _ _ _))) in *. set (D := IZR (Z.of_N d)) in *.
    replace (c * S / D * D) with (c * S) by (field; lra). nra.
Qed.
