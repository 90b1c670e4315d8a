(** * Quantiles are interpolated order statistics (exact arithmetic). *)

From Coq Require Import Permutation Sorted.
From Flocq Require Import Core.Raux.
From Verif Require Export Count DistReal.
Local Unset Implicit Arguments.
Local Open Scope R_scope.

Lemma sorted_nth s i j : StronglySorted Rle s -> (i <= j < length s)%nat -> nth i s 0 <= nth j s 0.
Proof.
  intros H. revert i j. induction H as [|a s H IH Ha]; intros i j Hij; [cbn in *; lia|].
  destruct i as [|i], j as [|j]; cbn in *; try lia; try lra.
  - rewrite Forall_forall in Ha. apply Ha, nth_In. lia.
  - apply IH. lia.
Qed.
(** An item with at most [k] items below it and more than [k] not above it is
    item [k] of the sorted list. *)
Lemma order_stat s v k : StronglySorted Rle s -> (k < length s)%nat ->
  (count (fun x => Rltb x v) s <= k)%nat -> (k < count (fun x => Rleb x v) s)%nat -> nth k s 0 = v.
Proof.
  intros S Hk C1 C2. rewrite <- (firstn_skipn k s), count_app in C2.
  rewrite <- (firstn_skipn (k + 1) s), count_app in C1.
  assert (G : forall x, In x (skipn k s) -> nth k s 0 <= x).
  { intros x Hx. apply In_nth_error in Hx as [j Hj]. rewrite nth_error_skipn in Hj.
    assert (k + j < length s)%nat by (apply nth_error_Some; congruence).
    rewrite <- (nth_error_nth _ _ 0 Hj). apply sorted_nth; [easy|lia]. }
  assert (L : forall x, In x (firstn (k + 1) s) -> x <= nth k s 0).
  { intros x Hx. apply In_nth_error in Hx as [j Hj].
    assert (j < length (firstn (k + 1) s))%nat by (apply nth_error_Some; congruence).
    rewrite firstn_length in H. rewrite nth_error_firstn in Hj by lia.
    rewrite <- (nth_error_nth _ _ 0 Hj). apply sorted_nth; [easy|lia]. }
  destruct (Rtotal_order (nth k s 0) v) as [H|[H|H]]; [exfalso| easy |exfalso].
  - rewrite (count_all _ (firstn (k + 1) s)) in C1; [rewrite firstn_length in C1; lia|].
    intros x Hx. apply Rltb_true. apply L in Hx. lra.
  - rewrite (count_none _ (skipn k s)) in C2.
    + pose proof (count_le (fun x => Rleb x v) (firstn k s)) as Q. rewrite firstn_length in Q. lia.
    + intros x Hx. apply Rleb_false. apply G in Hx. lra.
Qed.

Lemma nth_error_map_inv {A B} (f : A -> B) l i y : nth_error (map f l) i = Some y ->
  exists x, nth_error l i = Some x /\ y = f x.
Proof. rewrite nth_error_map'. destruct (nth_error l i); [|easy]. intros [= <-]. eauto. Qed.

(** [quickselect] on reals: the buffer is split around the selected item. *)
Lemma quickselect_R m k : (k < length m)%nat ->
  exists d v, quickselect fltb (map Fin m) k = Ok (map Fin d, Fin v) /\ Permutation m d /\
  nth_error d k = Some v /\
  (forall x, In x (firstn (k + 1) d) -> x <= v) /\ (forall x, In x (skipn k d) -> v <= x) /\
  (forall x y, In x (firstn (k + 1) d) -> In y (skipn (k + 1) d) -> x <= y).
Proof.
  intros Hk. destruct (quickselect_split (@fltb xr XR) (map Fin m) k) as (d' & v' & E & Pm & N & L & G & LG).
  - now rewrite map_length.
  - intros x y Hx Hy. apply in_map_iff in Hx, Hy. destruct Hx as (a & <- & _), Hy as (b & <- & _).
    rewrite !x_ltb. intros H%Rltb_true. apply Rltb_false. lra.
  - intros x y z Hx Hy Hz. apply in_map_iff in Hx, Hy, Hz.
    destruct Hx as (a & <- & _), Hy as (b & <- & _), Hz as (c & <- & _).
    rewrite !x_ltb, !Rltb_false. lra.
  - symmetry in Pm. destruct (Permutation_map_inv _ _ Pm) as (d & -> & Pd).
    apply nth_error_map_inv in N. destruct N as (v & Nv & ->). exists d, v.
    split; [easy|split; [now symmetry|split; [easy|]]].
    assert (L' : forall x, In x (firstn (k + 1) d) -> x <= v).
    { intros x Hx. apply In_nth_error in Hx as [j Hj].
      assert (j < length (firstn (k + 1) d))%nat by (apply nth_error_Some; congruence).
      rewrite firstn_length in H. rewrite nth_error_firstn in Hj by lia.
      destruct (Nat.eq_dec j k) as [->|]; [rewrite Nv in Hj; injection Hj as ->; lra|].
      specialize (L j (Fin x) ltac:(lia)). rewrite nth_error_map', Hj, x_ltb in L.
      now apply Rltb_false, L. }
    assert (G' : forall x, In x (skipn k d) -> v <= x).
    { intros x Hx. apply In_nth_error in Hx as [j Hj]. rewrite nth_error_skipn in Hj.
      destruct j as [|j]; [rewrite Nat.add_0_r, Nv in Hj; injection Hj as ->; lra|].
      specialize (G (k + S j)%nat (Fin x) ltac:(lia)). rewrite nth_error_map', Hj, x_ltb in G.
      now apply Rltb_false, G. }
    split; [easy|split; [easy|]]. intros x y Hx Hy. apply L' in Hx. apply Rle_trans with v; [easy|].
    apply G'. apply In_nth_error in Hy as [j Hj]. rewrite nth_error_skipn in Hj.
    apply nth_error_In with (n := (1 + j)%nat). rewrite nth_error_skipn, <- Hj. f_equal. lia.
Qed.

Lemma quickselect_order m s k : (k < length m)%nat -> Permutation m s -> StronglySorted Rle s ->
  exists d, quickselect fltb (map Fin m) k = Ok (map Fin d, Fin (nth k s 0)) /\ Permutation m d /\
  (forall x y, In x (firstn (k + 1) d) -> In y (skipn (k + 1) d) -> x <= y).
Proof.
  intros Hk Ps Ss. destruct (quickselect_R m k Hk) as (d & v & E & Pd & N & L & G & LG).
  exists d. assert (V : nth k s 0 = v); [|now rewrite V].
  assert (Pds : Permutation d s) by (transitivity m; [now symmetry|easy]).
  pose proof (Permutation_length Pds) as Ln. pose proof (Permutation_length Ps) as Lm.
  assert (K : (k < length d)%nat) by (apply nth_error_Some; congruence).
  apply order_stat; try easy; [lia| |].
  - rewrite <- (count_perm _ _ _ Pds), <- (firstn_skipn k d), count_app, (count_none _ (skipn k d)).
    + pose proof (count_le (fun x => Rltb x v) (firstn k d)) as Q. rewrite firstn_length in Q. lia.
    + intros x Hx. apply Rltb_false. now apply G.
  - rewrite <- (count_perm _ _ _ Pds), <- (firstn_skipn (k + 1) d), count_app, (count_all _ (firstn (k + 1) d)).
    + rewrite firstn_length. lia.
    + intros x Hx. apply Rleb_true. now apply L.
Qed.

(** ** Minimum of a list with a NaN seed *)
Definition Rmin_list (l : list R) : R := match l with [] => 0 | a :: l' => fold_left Rmin l' a end.
Lemma fold_Rmin_spec l a : is_min (a :: l) (fold_left Rmin l a).
Proof.
  revert a. induction l as [|b l IH]; intros a.
  - split; [now left|]. intros x [<- | []]. cbn. lra.
  - cbn [fold_left]. destruct (IH (Rmin a b)) as [I M]. split.
    + destruct I as [<- | I]; [|right; now right]. unfold Rmin. destruct (Rle_dec a b); [now left|right; now left].
    + assert (Rmin a b <= a /\ Rmin a b <= b) by (unfold Rmin; destruct (Rle_dec a b); lra).
      assert (fold_left Rmin l (Rmin a b) <= Rmin a b) by (apply M; now left).
      intros x [<- | [<- | Hx]]; try lra. apply M. now right.
Qed.
Lemma x_fold_min l a : fold_left fmin (map Fin l) (Fin a) = Fin (fold_left Rmin l a).
Proof. revert a. induction l as [|b l IH]; intros a; cbn [map fold_left]; [easy|]. now rewrite x_min, IH. Qed.
Lemma x_fold_min_nan l : l <> [] -> exists m, fold_left fmin (map Fin l) NaN = Fin m /\ is_min l m.
Proof.
  destruct l as [|a l]; [easy|]. intros _. cbn [map fold_left]. rewrite x_min_nan_l, x_fold_min.
  eexists. split; [reflexivity|]. apply fold_Rmin_spec.
Qed.
Definition Rmax_list (l : list R) : R := match l with [] => 0 | a :: l' => fold_left Rmax l' a end.
Lemma fold_Rmax_spec l a : is_max (a :: l) (fold_left Rmax l a).
Proof.
  revert a. induction l as [|b l IH]; intros a.
  - split; [now left|]. intros x [<- | []]. cbn. lra.
  - cbn [fold_left]. destruct (IH (Rmax a b)) as [I M]. split.
    + destruct I as [<- | I]; [|right; now right]. unfold Rmax. destruct (Rle_dec a b); [right; now left|now left].
    + assert (a <= Rmax a b /\ b <= Rmax a b) by (unfold Rmax; destruct (Rle_dec a b); lra).
      assert (Rmax a b <= fold_left Rmax l (Rmax a b)) by (apply M; now left).
      intros x [<- | [<- | Hx]]; try lra. apply M. now right.
Qed.
Lemma x_fold_max l a : fold_left fmax (map Fin l) (Fin a) = Fin (fold_left Rmax l a).
Proof. revert a. induction l as [|b l IH]; intros a; cbn [map fold_left]; [easy|]. now rewrite x_max, IH. Qed.
Lemma x_fold_max_nan l : l <> [] -> exists m, fold_left fmax (map Fin l) NaN = Fin m /\ is_max l m.
Proof.
  destruct l as [|a l]; [easy|]. intros _. cbn [map fold_left]. rewrite x_max_nan_l, x_fold_max.
  eexists. split; [reflexivity|]. apply fold_Rmax_spec.
Qed.
Lemma is_max_unique l a b : is_max l a -> is_max l b -> a = b.
Proof. intros [A1 A2] [B1 B2]. apply Rle_antisym; auto. Qed.
Lemma is_min_unique l a b : is_min l a -> is_min l b -> a = b.
Proof. intros [A1 A2] [B1 B2]. apply Rle_antisym; auto. Qed.
Lemma Rmax_list_spec l : l <> [] -> is_max l (Rmax_list l).
Proof. destruct l; [easy|]. intros _. apply fold_Rmax_spec. Qed.
Lemma Rmin_list_spec l : l <> [] -> is_min l (Rmin_list l).
Proof. destruct l; [easy|]. intros _. apply fold_Rmin_spec. Qed.

(** ** Interpolation *)

Definition clamp (x lo hi : R) : R := Rmin hi (Rmax lo x).
Lemma x_clamp_val x lo hi : lo <= hi -> fclamp_val (Fin x) (Fin lo) (Fin hi) = Fin (clamp x lo hi).
Proof.
  intros H. unfold fclamp_val, clamp. rewrite x_ltb. rcase; rewrite x_ltb; rcase; f_equal;
    unfold Rmin, Rmax; repeat destruct Rle_dec; lra.
Qed.

(** The value at the fractional position [p] of the sorted list [s]. *)
Definition interpolate (s : list R) (p : R) : R :=
  let lo := nth (Z.to_nat (Zfloor p)) s 0 in
  let hi := nth (Z.to_nat (Zceil p)) s 0 in
  lo + (p - IZR (Zfloor p)) * (hi - lo).

Lemma ftoN_int z : (0 <= z < 2 ^ 64)%Z -> N.to_nat (@ftoN xr XR (Fin (IZR z))) = Z.to_nat z.
Proof.
  intros H. cbn [ftoN XR xtoN]. rewrite Ztrunc_IZR. unfold two64.
  rewrite Z.min_r by (change (Z.of_N (2 ^ 64)) with (2 ^ 64)%Z; lia). lia.
Qed.

Lemma quantile_win_real w q m s : length m = w -> (0 < w)%nat -> (Z.of_nat w <= 2 ^ 64)%Z ->
  Permutation m s -> StronglySorted Rle s ->
  quantile_win w (Fin q) (map Fin m) =
  Ok (Fin (interpolate s (INR (w - 1) * (clamp q 0 100 / 100)))).
Proof.
  intros Lm Hw Hb Pm Ss. unfold quantile_win, usub. destruct (Nat.leb_spec 1 w) as [_|]; [|lia]. cbn [bind].
  rewrite !x_lit, x_clamp_val, x_nat, x_div, x_mul by lra.
  set (c := clamp q 0 100). assert (Hc : 0 <= c <= 100).
  { unfold c, clamp, Rmin, Rmax. repeat destruct Rle_dec; lra. }
  set (p := INR (w - 1) * (c / 100)). pose proof (pos_INR (w - 1)) as W0.
  assert (Hp : 0 <= p <= INR (w - 1)) by (unfold p; nra).
  unfold ffract. cbn [ftrunc XR xmap]. rewrite x_sub, x_eqb.
  pose proof (Zfloor_lb p) as Fl. pose proof (Zfloor_ub p) as Fu.
  assert (F0 : (0 <= Zfloor p)%Z) by (apply Zfloor_lub; lra).
  assert (C0 : (Zceil p <= Z.of_nat (w - 1))%Z) by (apply Zceil_glb; rewrite <- INR_IZR_INZ; lra).
  assert (T : Ztrunc p = Zfloor p) by (apply Ztrunc_floor; lra). rewrite T.
  destruct (Req (p - IZR (Zfloor p)) 0) eqn:E; [apply Req_true in E | apply Req_false in E].
  - assert (E' : p = IZR (Zfloor p)) by lra.
    assert (Cp : Zceil p = Zfloor p) by (rewrite E' at 1; apply Zceil_IZR).
    assert (K : N.to_nat (@ftoN xr XR (Fin p)) = Z.to_nat (Zfloor p)).
    { rewrite E'. rewrite ftoN_int; [now rewrite Zfloor_IZR|]. lia. }
    rewrite K. destruct (quickselect_order m s (Z.to_nat (Zfloor p))) as (d & -> & _); try easy; [lia|].
    cbn [bind]. do 2 f_equal. unfold interpolate. rewrite Cp. ring.
  - assert (Cf : Zceil p = (Zfloor p + 1)%Z) by (apply Zceil_floor_neq; lra).
    cbn [ffloor fceil XR xmap]. change (xadd) with (@fadd xr XR).
    rewrite !ftoN_int by lia.
    destruct (quickselect_order m s (Z.to_nat (Zfloor p))) as (d & -> & Pd & LG); try easy; [lia|].
    cbn [bind]. set (k := Z.to_nat (Zfloor p)) in *.
    assert (Kc : Z.to_nat (Zceil p) = (k + 1)%nat) by lia. rewrite Kc.
    pose proof (Permutation_length Pd) as Ld. unfold slice_from. rewrite map_length, <- Ld.
    destruct (Nat.leb_spec (k + 1) (length m)) as [_|]; [|lia]. cbn [bind].
    rewrite skipn_map. change (@fnan xr XR) with NaN.
    destruct (x_fold_min_nan (skipn (k + 1) d)) as (u & -> & Iu & Mu).
    { intros Z. assert (length (skipn (k + 1) d) = 0%nat) by now rewrite Z. rewrite skipn_length in H. lia. }
    rewrite !x_sub, !x_mul, x_add. do 2 f_equal. unfold interpolate. fold k. rewrite Kc, Cf, plus_IZR.
    assert (U : nth (k + 1) s 0 = u); [|rewrite U; ring].
    assert (Pds : Permutation d s) by (transitivity m; [now symmetry|easy]).
    pose proof (Permutation_length Pds) as Ls.
    apply order_stat; [easy|lia| |].
    + rewrite <- (count_perm _ _ _ Pds), <- (firstn_skipn (k + 1) d), count_app, (count_none _ (skipn (k + 1) d)).
      * pose proof (count_le (fun x => Rltb x u) (firstn (k + 1) d)) as Q. rewrite firstn_length in Q. lia.
      * intros x Hx. apply Rltb_false. now apply Mu.
    + rewrite <- (count_perm _ _ _ Pds), <- (firstn_skipn (k + 1) d), count_app, (count_all _ (firstn (k + 1) d)).
      * rewrite firstn_length. pose proof (count_pos (fun x => Rleb x u) (skipn (k + 1) d) u Iu).
        assert (Rleb u u = true) by (apply Rleb_true; lra). specialize (H H0). lia.
      * intros x Hx. apply Rleb_true. now apply LG.
Qed.

(** Every list has a sorted rearrangement. *)
Fixpoint Rinsert (x : R) (l : list R) : list R :=
  match l with [] => [x] | a :: l' => if Rleb x a then x :: l else a :: Rinsert x l' end.
Definition Rsort (l : list R) : list R := fold_right Rinsert [] l.
Lemma Rinsert_perm x l : Permutation (x :: l) (Rinsert x l).
Proof.
  induction l as [|a l IH]; [easy|]. cbn. destruct (Rleb x a); [easy|].
  rewrite perm_swap. now constructor.
Qed.
Lemma Rsort_perm l : Permutation l (Rsort l).
Proof. induction l as [|a l IH]; [easy|]. cbn. rewrite <- Rinsert_perm. now constructor. Qed.
Lemma Rinsert_sorted x l : StronglySorted Rle l -> StronglySorted Rle (Rinsert x l).
Proof.
  induction 1 as [|a l H IH Ha]; [repeat constructor|]. cbn. rcase.
  - constructor; [now constructor|]. constructor; [easy|]. eapply Forall_impl; [|exact Ha]. cbn; intros; lra.
  - constructor; [easy|]. eapply Permutation_Forall; [apply Rinsert_perm|]. constructor; [lra|easy].
Qed.
Lemma Rsort_sorted l : StronglySorted Rle (Rsort l).
Proof. induction l; [constructor|]. cbn. now apply Rinsert_sorted. Qed.

(** ** quantile and median *)

Theorem quantile_real l w q : (0 < w)%nat -> (Z.of_nat w <= 2 ^ 64)%Z ->
  exists o, quantile (map Fin l) w (Fin q) = Ok o /\
  length o = Nat.max (w - 1) (length l) /\
  (forall i, (i < w - 1)%nat -> nth_error o i = Some NaN) /\
  forall i s, (w - 1 <= i < length l)%nat -> Permutation (win w l i) s -> StronglySorted Rle s ->
    nth_error o i = Some (Fin (interpolate s (INR (w - 1) * (clamp q 0 100 / 100)))).
Proof.
  intros Hw Hb. unfold quantile, usub, rwindows.
  destruct (Nat.leb_spec 1 w) as [_|]; [|lia]. destruct (Nat.eqb_spec w 0); [lia|]. cbn [bind].
  set (f := fun m => Fin (interpolate (Rsort m) (INR (w - 1) * (clamp q 0 100 / 100)))).
  assert (C : forall m, length m = w -> quantile_win w (Fin q) (map Fin m) = Ok (f m)).
  { intros m Lm. apply quantile_win_real; try easy; [apply Rsort_perm | apply Rsort_sorted]. }
  set (g := fun x => match quantile_win w (Fin q) x with Ok a => a | Panic => NaN end).
  assert (C2 : forall x, In x (windows w (map Fin l)) -> quantile_win w (Fin q) x = Ok (g x)).
  { intros x Hx. rewrite windows_map in Hx. apply in_map_iff in Hx. destruct Hx as (m & <- & Hm).
    unfold g. rewrite C; [easy|]. apply (windows_length) in Hm; [easy|lia]. }
  rewrite (rmap_Ok_map C2). cbn [bind]. change (@fnan xr XR) with NaN.
  destruct (windowed_real l w g f Hw) as (L & W & V).
  { intros m Lm. unfold g. now rewrite C. }
  eexists; split; [reflexivity|]. split; [easy|split; [easy|]].
  intros i s Hi Ps Ss. rewrite V by easy. f_equal. unfold f.
  set (m := win w l i) in *. assert (Lm : length m = w) by (apply length_win; lia).
  assert (Q1 := C m Lm). rewrite (quantile_win_real w q m s) in Q1 by easy. unfold f in Q1.
  now injection Q1 as ->.
Qed.

Theorem median_real l w : (0 < w)%nat -> (Z.of_nat w <= 2 ^ 64)%Z ->
  exists o, median (map Fin l) w = Ok o /\
  length o = Nat.max (w - 1) (length l) /\
  (forall i, (i < w - 1)%nat -> nth_error o i = Some NaN) /\
  forall i s, (w - 1 <= i < length l)%nat -> Permutation (win w l i) s -> StronglySorted Rle s ->
    nth_error o i = Some (Fin ((nth ((w - 1) / 2) s 0 + nth (w / 2) s 0) / 2)).
Proof.
  intros Hw Hb. unfold median. rewrite x_lit. destruct (quantile_real l w 50 Hw Hb) as (o & E & L & W & V).
  exists o. split; [easy|split; [easy|split; [easy|]]]. intros i s Hi Ps Ss. rewrite (V i s Hi Ps Ss).
  do 2 f_equal. assert (Cl : clamp 50 0 100 = 50) by (unfold clamp, Rmin, Rmax; repeat destruct Rle_dec; lra).
  rewrite Cl. replace (INR (w - 1) * (50 / 100)) with (INR (w - 1) / 2) by lra. unfold interpolate.
  assert (Hd : (w - 1 = 2 * ((w - 1) / 2) \/ w - 1 = 2 * ((w - 1) / 2) + 1)%nat).
  { pose proof (Nat.div_mod (w - 1) 2). pose proof (Nat.mod_upper_bound (w - 1) 2). lia. }
  set (h := ((w - 1) / 2)%nat) in *. destruct Hd as [Hd|Hd]; rewrite Hd.
  - replace (INR (2 * h) / 2) with (IZR (Z.of_nat h)) by (rewrite mult_INR, <- INR_IZR_INZ; cbn [INR]; lra).
    rewrite Zfloor_IZR, Zceil_IZR, Nat2Z.id. replace (w / 2)%nat with h; [lra|].
    replace w with (1 + h * 2)%nat by lia. rewrite Nat.div_add by lia. reflexivity.
  - assert (F : Zfloor (INR (2 * h + 1) / 2) = Z.of_nat h).
    { apply Zfloor_imp. rewrite plus_IZR, <- INR_IZR_INZ, plus_INR, mult_INR. cbn [INR]. lra. }
    assert (C : Zceil (INR (2 * h + 1) / 2) = Z.of_nat (h + 1)).
    { apply Zceil_imp. rewrite minus_IZR, <- INR_IZR_INZ, !plus_INR, mult_INR. cbn [INR]. lra. }
    rewrite F, C, !Nat2Z.id. rewrite <- INR_IZR_INZ, plus_INR, mult_INR. cbn [INR].
    replace (w / 2)%nat with (h + 1)%nat; [lra|].
    replace w with (0 + (h + 1) * 2)%nat by lia. now rewrite Nat.div_add by lia.
Qed.

(** A quantile lies in the range of its window. *)
Theorem quantile_inside l w q : (0 < w)%nat -> (Z.of_nat w <= 2 ^ 64)%Z ->
  exists o, quantile (map Fin l) w (Fin q) = Ok o /\ inside o (w - 1) (length l) (win w l).
Proof.
  intros Hw Hb. destruct (quantile_real l w q Hw Hb) as (o & E & L & W & V). exists o. split; [easy|].
  intros i Hi. set (s := Rsort (win w l i)). eexists. split.
  - apply (V i s Hi); [apply Rsort_perm | apply Rsort_sorted].
  - assert (Ls : length s = w).
    { unfold s. rewrite <- (Permutation_length (Rsort_perm _)). apply length_win; lia. }
    set (c := clamp q 0 100). assert (Hc : 0 <= c <= 100) by (unfold c, clamp, Rmin, Rmax; repeat destruct Rle_dec; lra).
    set (p := INR (w - 1) * (c / 100)). pose proof (pos_INR (w - 1)) as W0.
    assert (Hp : 0 <= p <= INR (w - 1)) by (unfold p; nra).
    pose proof (Zfloor_lb p) as Fl. pose proof (Zfloor_ub p) as Fu.
    assert (F0 : (0 <= Zfloor p)%Z) by (apply Zfloor_lub; lra).
    assert (C0 : (Zceil p <= Z.of_nat (w - 1))%Z) by (apply Zceil_glb; rewrite <- INR_IZR_INZ; lra).
    pose proof (Zceil_ub p) as Cu. assert (FC : (Zfloor p <= Zceil p)%Z) by (apply le_IZR; lra).
    assert (S : forall k, (k < w)%nat -> In (nth k s 0) (win w l i)).
    { intros k Hk. eapply Permutation_in; [symmetry; apply Rsort_perm|]. apply nth_In. fold s. lia. }
    unfold interpolate. fold c p.
    assert (Hle : nth (Z.to_nat (Zfloor p)) s 0 <= nth (Z.to_nat (Zceil p)) s 0).
    { apply sorted_nth; [apply Rsort_sorted|lia]. }
    split; [exists (nth (Z.to_nat (Zfloor p)) s 0) | exists (nth (Z.to_nat (Zceil p)) s 0)];
      (split; [apply S; lia|nra]).
Qed.
