(** * Maximal information coefficient (correlation.rs [mic]). *)

From Coq Require Import Permutation.
From Flocq Require Import Core.Raux.
From Verif Require Export CorrReal OrderStat.
Local Unset Implicit Arguments.
Local Open Scope R_scope.

(** ** Specification *)

(** Relative frequency of [x] in a sample. *)
Definition freq {A} (dec : forall a b : A, {a = b} + {a <> b}) (x : A) (s : list A) : R :=
  INR (count_occ dec s x) / INR (length s).
Definition pair_dec : forall a b : N * N, {a = b} + {a <> b}.
Proof. intros [a b] [c d]. destruct (N.eq_dec a c) as [->|H]; [destruct (N.eq_dec b d) as [->|H]|]; [now left| |]; right; congruence. Defined.
Definition log2 (x : R) : R := ln x / ln 2.

(** Mutual information, in bits, of a sample of pairs: the mean of the pointwise
    mutual information. *)
Definition mutual (s : list (N * N)) : R :=
  mean (map (fun t => log2 (freq pair_dec t s / (freq N.eq_dec (fst t) (map fst s) * freq N.eq_dec (snd t) (map snd s)))) s).

(** The cell, among [b] cells of equal width between [lo] and [hi], of [v]. *)
Definition cell (lo hi : R) (b : nat) (v : R) : N :=
  if Req lo hi then 0%N
  else N.min (Z.to_N (Zfloor ((v - lo) / ((hi - lo) / INR b)))) (N.of_nat (b - 1)).

(** Grids of at most [m] cells, at least two on a side. *)
Definition grids (m : nat) : list (nat * nat) :=
  filter (fun ij => (fst ij * snd ij <=? m)%nat) (list_prod (seq 2 m) (seq 2 m)).

(** ** Counting *)
Lemma freq_pos {A} dec (x : A) s : In x s -> 0 < freq dec x s.
Proof.
  intros H. apply Rdiv_lt_0_compat; apply lt_0_INR; [apply (count_occ_In dec) in H; lia|destruct s; [easy|cbn; lia]].
Qed.
Lemma freq_le1 {A} dec (x : A) s : s <> [] -> freq dec x s <= 1.
Proof.
  intros H. assert (Hn : (0 < length s)%nat) by (destruct s; cbn; [easy|lia]). pose proof (INR_pos _ Hn).
  apply Rmult_le_reg_r with (1 := H0). unfold freq. rewrite Rmult_1_l. unfold Rdiv. rewrite Rmult_assoc, Rinv_l by lra.
  rewrite Rmult_1_r. apply le_INR. apply count_occ_bound.
Qed.
Section Count.
  Context {A : Type} (eqb : A -> A -> bool) (dec : forall a b : A, {a = b} + {a <> b}).
  Hypothesis eqb_ok : forall a b, eqb a b = true <-> a = b.

  Lemma countb_occ x l : countb eqb x l = count_occ dec l x.
  Proof.
    unfold countb. induction l as [|a l IH]; [easy|]. cbn [filter count_occ].
    destruct (dec a x) as [->|H].
    - rewrite (proj2 (eqb_ok x x) eq_refl). cbn. now rewrite IH.
    - destruct (eqb x a) eqn:E; [apply eqb_ok in E; congruence|easy].
  Qed.
  Lemma existsb_eqb x l : existsb (eqb x) l = true <-> In x l.
  Proof.
    rewrite existsb_exists. split; [intros (y & Hy & E); apply eqb_ok in E; now subst|].
    intros H. exists x. split; [easy|]. now apply eqb_ok.
  Qed.
  Lemma in_distinct x l : In x (distinct eqb l) <-> In x l.
  Proof.
    induction l as [|a l IH]; [easy|]. cbn [distinct]. destruct (existsb (eqb a) l) eqn:E.
    - rewrite IH. cbn. apply existsb_eqb in E. split; [now right|]. intros [<-|H]; easy.
    - cbn. now rewrite IH.
  Qed.
  Lemma NoDup_distinct l : NoDup (distinct eqb l).
  Proof.
    induction l as [|a l IH]; [constructor|]. cbn [distinct]. destruct (existsb (eqb a) l) eqn:E; [easy|].
    constructor; [|easy]. rewrite in_distinct. intros H. apply existsb_eqb in H. congruence.
  Qed.
  (** Summing over the distinct items with their counts is summing over the items. *)
  Lemma sum_distinct (g : A -> R) l :
    Rsum (map (fun d => INR (count_occ dec l d) * g d) (distinct eqb l)) = Rsum (map g l).
  Proof.
    assert (G : forall ds, NoDup ds -> forall l, (forall x, In x l -> In x ds) ->
      Rsum (map (fun d => INR (count_occ dec l d) * g d) ds) = Rsum (map g l)).
    { intros ds ND. clear l. induction l as [|a l IH]; intros I.
      - cbn. induction ds as [|d ds IH]; cbn [map]; rewrite ?Rsum_cons; [easy|]. rewrite IH; [lra|now inversion ND|easy].
      - cbn [map]. rewrite Rsum_cons, <- IH by (intros; apply I; now right).
        assert (Ha : In a ds) by (apply I; now left). clear I IH. induction ds as [|d ds IH]; [easy|]. cbn [map]. rewrite !Rsum_cons.
        inversion ND as [|? ? Hd ND']; subst. cbn [count_occ]. destruct Ha as [->|Ha].
        + destruct (dec a a); [|easy]. rewrite S_INR.
          rewrite (map_ext_in (fun d => INR (if dec a d then S (count_occ dec l d) else count_occ dec l d) * g d) (fun d => INR (count_occ dec l d) * g d)); [lra|].
          intros d Hd'. destruct (dec a d); [now subst|easy].
        + destruct (dec a d) as [->|H]; [easy|]. specialize (IH ND' Ha). cbn [count_occ] in IH. rewrite IH. lra. }
    apply G; [apply NoDup_distinct|]. intros x Hx. now apply in_distinct.
  Qed.
  (** The mean of [g / freq] counts each distinct item once. *)
  Lemma mean_over_freq (g : A -> R) s : s <> [] ->
    mean (map (fun t => g t / freq dec t s) s) = Rsum (map g (distinct eqb s)).
  Proof.
    intros H. assert (Hn : (0 < length s)%nat) by (destruct s; cbn; [easy|lia]). pose proof (INR_pos _ Hn).
    unfold mean. rewrite map_length, <- sum_distinct. unfold Rdiv at 1. rewrite Rmult_comm, <- Rsum_map_scale.
    f_equal. apply map_ext_in. intros d Hd. apply (proj1 (in_distinct _ _)) in Hd. pose proof (freq_pos dec d s Hd) as P.
    assert (C : INR (count_occ dec s d) = freq dec d s * INR (length s)) by (unfold freq; field; lra).
    rewrite C. field. lra.
  Qed.
End Count.

(** ** Information inequalities *)
Lemma ln_le_sub1 x : 0 < x -> ln x <= x - 1.
Proof.
  intros H. rewrite <- (ln_exp (x - 1)). destruct (Req_dec x 1) as [->|N].
  - rewrite ln_1. rewrite ln_exp. lra.
  - apply Rlt_le, ln_increasing; [easy|]. pose proof (exp_ineq1 (x - 1) ltac:(lra)). lra.
Qed.
Lemma ln_ge_1_sub x : 0 < x -> 1 - / x <= ln x.
Proof.
  intros H. pose proof (ln_le_sub1 (/ x) (Rinv_0_lt_compat _ H)) as L. rewrite ln_Rinv in L by easy. lra.
Qed.
Lemma ln2_pos : 0 < ln 2.
Proof. rewrite <- ln_1. apply ln_increasing; lra. Qed.
Lemma Rsum_incl {A} (f : A -> R) l m : NoDup l -> incl l m -> (forall x, In x m -> 0 <= f x) ->
  Rsum (map f l) <= Rsum (map f m).
Proof.
  revert m. induction l as [|a l IH]; intros m ND I P.
  - apply Rsum_nonneg. intros x Hx. apply in_map_iff in Hx as (y & <- & Hy). now apply P.
  - inversion ND as [|? ? Ha ND']; subst. destruct (in_split a m) as (m1 & m2 & ->); [apply I; now left|].
    cbn [map]. rewrite map_app, Rsum_app. cbn [map]. rewrite !Rsum_cons.
    assert (Rsum (map f l) <= Rsum (map f (m1 ++ m2))).
    { apply IH; [easy| |intros x Hx; apply P; apply in_app_or in Hx; apply in_or_app; destruct Hx; [now left|right; now right]].
      intros x Hx. specialize (I x (or_intror Hx)). apply in_app_or in I. apply in_or_app. destruct I as [I|[->|I]]; auto. easy. }
    rewrite map_app, Rsum_app in H. lra.
Qed.
Lemma Rsum_prod {A B} (f : A -> R) (g : B -> R) l m :
  Rsum (map (fun p => f (fst p) * g (snd p)) (list_prod l m)) = Rsum (map f l) * Rsum (map g m).
Proof.
  induction l as [|a l IH]; cbn [list_prod map]; [rewrite Rsum_nil; ring|].
  rewrite map_app, Rsum_app, IH, map_map, Rsum_cons. cbn [fst snd]. rewrite Rsum_map_scale. ring.
Qed.
Lemma mean_map_add {A} (f g : A -> R) l : mean (map (fun x => f x + g x) l) = mean (map f l) + mean (map g l).
Proof. unfold mean. rewrite !map_length, Rsum_map_add. unfold Rdiv. ring. Qed.
Lemma mean_map_scale {A} c (f : A -> R) l : mean (map (fun x => c * f x) l) = c * mean (map f l).
Proof. unfold mean. rewrite !map_length, Rsum_map_scale. unfold Rdiv. ring. Qed.
Lemma mean_map_const {A} c (l : list A) : l <> [] -> mean (map (fun _ => c) l) = c.
Proof.
  intros H. unfold mean. rewrite map_length, Rsum_const. field. apply INR_neq0. destruct l; cbn; [easy|lia].
Qed.
Lemma mean_le {A} (f g : A -> R) l : (forall x, In x l -> f x <= g x) -> mean (map f l) <= mean (map g l).
Proof.
  intros H. unfold mean. rewrite !map_length. destruct l as [|a l]; [cbn; lra|].
  apply Rmult_le_compat_r; [apply Rlt_le, Rinv_0_lt_compat, lt_0_INR; cbn; lia|]. now apply Rsum_le.
Qed.

Lemma pair_eqb_ok a b : pair_eqb a b = true <-> a = b.
Proof.
  destruct a as [a1 a2], b as [b1 b2]. unfold pair_eqb. cbn [fst snd]. rewrite andb_true_iff, !N.eqb_eq.
  split; [intros [-> ->]; easy|]. intros E. now injection E.
Qed.
Lemma freq_total (s : list N) : s <> [] -> Rsum (map (fun x => freq N.eq_dec x s) (distinct N.eqb s)) = 1.
Proof.
  intros H. rewrite <- (mean_over_freq N.eqb N.eq_dec N.eqb_eq) by easy.
  rewrite (map_ext_in _ (fun _ => 1)); [now apply mean_map_const|]. intros t Ht.
  pose proof (freq_pos N.eq_dec t s Ht). field. lra.
Qed.
Lemma freq_proj (f : N * N -> N) t s : freq pair_dec t s <= freq N.eq_dec (f t) (map f s).
Proof.
  unfold freq. rewrite map_length. destruct s as [|a s']; [cbn; lra|]. set (s := a :: s').
  apply Rmult_le_compat_r; [apply Rlt_le, Rinv_0_lt_compat, lt_0_INR; cbn; lia|]. apply le_INR.
  induction s as [|b l IH]; [easy|]. cbn [map count_occ]. destruct (pair_dec b t) as [->|]; destruct (N.eq_dec _ _); try easy; lia.
Qed.

(** Mutual information is not negative ... *)
Theorem mutual_nonneg s : 0 <= mutual s.
Proof.
  destruct s as [|a s']; [unfold mutual, mean; cbn; unfold Rdiv; lra|]. set (s := a :: s'). assert (Hs : s <> []) by easy.
  set (px := fun x => freq N.eq_dec x (map fst s)). set (py := fun y => freq N.eq_dec y (map snd s)).
  assert (Hx : map fst s <> []) by easy. assert (Hy : map snd s <> []) by easy.
  assert (P : forall t, In t s -> 0 < freq pair_dec t s /\ 0 < px (fst t) /\ 0 < py (snd t)).
  { intros t Ht. repeat split; apply freq_pos; [easy| |]; now apply in_map. }
  assert (B : mean (map (fun t => px (fst t) * py (snd t) / freq pair_dec t s) s) <= 1).
  { rewrite (mean_over_freq pair_eqb pair_dec pair_eqb_ok (fun t => px (fst t) * py (snd t))) by easy.
    rewrite <- (Rmult_1_r 1). rewrite <- (freq_total (map fst s) Hx) at 1. rewrite <- (freq_total (map snd s) Hy), <- Rsum_prod.
    apply (Rsum_incl (fun t => px (fst t) * py (snd t))); [apply (NoDup_distinct _ pair_eqb_ok)| |].
    - intros [x y] H. apply (proj1 (in_distinct _ pair_eqb_ok _ _)) in H. apply in_prod; apply (in_distinct _ N.eqb_eq).
      + exact (in_map fst _ _ H). + exact (in_map snd _ _ H).
    - intros [x y] H. apply in_prod_iff in H. destruct H as [H1 H2]. apply (proj1 (in_distinct _ N.eqb_eq _ _)) in H1. apply (proj1 (in_distinct _ N.eqb_eq _ _)) in H2.
      apply Rlt_le, Rmult_lt_0_compat; now apply freq_pos. }
  apply Rmult_le_reg_r with (1 := ln2_pos). rewrite Rmult_0_l. unfold mutual. fold px py. rewrite Rmult_comm, <- mean_map_scale.
  eapply Rle_trans; [|apply (mean_le (fun t => 1 + -1 * (px (fst t) * py (snd t) / freq pair_dec t s)))].
  - rewrite mean_map_add, mean_map_scale, mean_map_const by easy. lra.
  - intros t Ht. destruct (P t Ht) as (P1 & P2 & P3). pose proof ln2_pos as L2. unfold log2.
    replace (ln 2 * _) with (ln (freq pair_dec t s / (px (fst t) * py (snd t)))) by (unfold px, py; field; lra).
    pose proof (ln_ge_1_sub (freq pair_dec t s / (px (fst t) * py (snd t)))) as L.
    replace (/ (freq pair_dec t s / (px (fst t) * py (snd t)))) with (px (fst t) * py (snd t) / freq pair_dec t s) in L by (field; lra).
    assert (0 < freq pair_dec t s / (px (fst t) * py (snd t))) by (apply Rdiv_lt_0_compat; nra). specialize (L H). lra.
Qed.
(** ... and at most the logarithm of the number of values on either side. *)
Lemma mutual_le_gen (f g : N * N -> N) s k : s <> [] -> (0 < k)%nat -> (length (distinct N.eqb (map f s)) <= k)%nat ->
  mean (map (fun t => log2 (freq pair_dec t s / (freq N.eq_dec (f t) (map f s) * freq N.eq_dec (g t) (map g s)))) s) <= log2 (INR k).
Proof.
  intros Hs Hk Hc. set (px := fun x => freq N.eq_dec x (map f s)). set (py := fun y => freq N.eq_dec y (map g s)).
  pose proof (INR_pos k Hk) as Pk. pose proof ln2_pos as L2.
  assert (P : forall t, In t s -> 0 < freq pair_dec t s /\ 0 < px (f t) /\ 0 < py (g t)).
  { intros t Ht. repeat split; apply freq_pos; [easy| |]; now apply in_map. }
  assert (C : mean (map (fun t => 1 / px (f t)) s) = INR (length (distinct N.eqb (map f s)))).
  { rewrite <- (map_map f (fun x => 1 / px x)). unfold px.
    rewrite (mean_over_freq N.eqb N.eq_dec N.eqb_eq (fun _ => 1)) by (destruct s; easy). rewrite Rsum_const. ring. }
  apply Rmult_le_reg_r with (1 := L2). fold px py. rewrite Rmult_comm, <- mean_map_scale.
  eapply Rle_trans; [apply (mean_le _ (fun t => (ln (INR k) - 1) + / INR k * (1 / px (f t))))|].
  - intros t Ht. destruct (P t Ht) as (P1 & P2 & P3). unfold log2.
    fold (px (f t)) (py (g t)). set (q := freq pair_dec t s / (px (f t) * py (g t))).
    assert (Q0 : 0 < q) by (apply Rdiv_lt_0_compat; nra).
    assert (Q1 : q <= 1 / px (f t)).
    { pose proof (freq_proj g t s) as M. fold (py (g t)) in M. unfold q. apply Rmult_le_reg_r with (px (f t) * py (g t)); [nra|].
      replace (freq pair_dec t s / (px (f t) * py (g t)) * (px (f t) * py (g t))) with (freq pair_dec t s) by (field; lra).
      replace (1 / px (f t) * (px (f t) * py (g t))) with (py (g t)) by (field; lra). easy. }
    replace (ln 2 * (ln q / ln 2)) with (ln q) by (field; lra).
    assert (E : ln q = ln (INR k) + ln (q / INR k)) by (rewrite <- ln_mult; [f_equal; field; lra|easy|apply Rdiv_lt_0_compat; easy]).
    pose proof (ln_le_sub1 (q / INR k) ltac:(apply Rdiv_lt_0_compat; easy)) as L.
    assert (q / INR k <= / INR k * (1 / px (f t))).
    { unfold Rdiv at 1. rewrite Rmult_comm. apply Rmult_le_compat_l; [now apply Rlt_le, Rinv_0_lt_compat|easy]. }
    lra.
  - rewrite mean_map_add, mean_map_scale, mean_map_const, C by easy. unfold log2.
    replace (ln (INR k) / ln 2 * ln 2) with (ln (INR k)) by (field; lra). apply le_INR in Hc.
    assert (/ INR k * INR (length (distinct N.eqb (map f s))) <= 1).
    { apply Rmult_le_reg_l with (1 := Pk). rewrite <- Rmult_assoc, Rinv_r by lra. lra. }
    lra.
Qed.
Lemma distinct_bound (s : list N) k : (forall x, In x s -> (x < N.of_nat k)%N) -> (length (distinct N.eqb s) <= k)%nat.
Proof.
  intros H. rewrite <- (seq_length k 0), <- (map_length N.of_nat).
  apply NoDup_incl_length; [apply (NoDup_distinct _ N.eqb_eq)|]. intros x Hx. apply (proj1 (in_distinct _ N.eqb_eq _ _)) in Hx.
  apply in_map_iff. exists (N.to_nat x). split; [lia|]. apply in_seq. specialize (H x Hx). lia.
Qed.
Theorem mutual_le s i j : s <> [] -> (forall t, In t s -> (fst t < N.of_nat i)%N /\ (snd t < N.of_nat j)%N) ->
  mutual s <= log2 (INR (Nat.min i j)).
Proof.
  intros Hs B. assert ((0 < i)%nat /\ (0 < j)%nat) as [Hi Hj].
  { destruct s as [|t s']; [easy|]. destruct (B t (or_introl eq_refl)). split; lia. }
  destruct (Nat.min_spec i j) as [[_ ->]|[_ ->]].
  - apply (mutual_le_gen fst snd); [easy|easy|]. apply distinct_bound. intros x Hx. apply in_map_iff in Hx as (t & <- & Ht). now apply B.
  - unfold mutual. rewrite (map_ext _ (fun t => log2 (freq pair_dec t s / (freq N.eq_dec (snd t) (map snd s) * freq N.eq_dec (fst t) (map fst s)))))
      by (intros; now rewrite (Rmult_comm (freq N.eq_dec (fst _) _))).
    apply (mutual_le_gen snd fst); [easy|easy|]. apply distinct_bound. intros x Hx. apply in_map_iff in Hx as (t & <- & Ht). now apply B.
Qed.

(** ** The model *)

(** The order in which a hash table yields its keys is some permutation. *)
Definition visits_all (ord : hash_order) : Prop := forall l, Permutation (ord l) l.

Lemma Rsum_permute l m : Permutation l m -> Rsum l = Rsum m.
Proof. induction 1; rewrite ?Rsum_cons; lra. Qed.
Lemma x_log2 r : 0 < r -> flog2 (Fin r) = Fin (log2 r).
Proof. intros H. cbn. unfold Rltb. destruct (Rlt_dec 0 r); [reflexivity|lra]. Qed.

(** Mutual information does not depend on the order of the hash table. *)
Theorem x_mutual_info ord xs ys : visits_all ord -> length xs = length ys -> xs <> [] ->
  mutual_info ord xs ys = Fin (mutual (combine xs ys)).
Proof.
  intros Ho L Hx. unfold mutual_info. set (s := combine xs ys).
  assert (Ls : length s = length xs) by (unfold s; rewrite combine_length; lia).
  assert (Hn : (0 < length xs)%nat) by (destruct xs; cbn; [easy|lia]). pose proof (INR_pos _ Hn) as Pn.
  rewrite x_lit. set (pmi := fun t => log2 (freq pair_dec t s / (freq N.eq_dec (fst t) (map fst s) * freq N.eq_dec (snd t) (map snd s)))).
  transitivity (fold_left (fun acc t => fadd acc (Fin (freq pair_dec t s * pmi t))) (ord (distinct pair_eqb s)) (Fin 0)).
  - assert (I : forall t, In t (ord (distinct pair_eqb s)) -> In t s).
    { intros t Ht. apply (Permutation_in _ (Ho _)) in Ht. now apply (proj1 (in_distinct _ pair_eqb_ok _ _)) in Ht. }
    revert I. generalize (ord (distinct pair_eqb s)) (Fin 0). induction l as [|t l IH]; intros a I; [easy|]. cbn [fold_left].
    rewrite IH by (intros; apply I; now right). f_equal. destruct t as [u v].
    assert (Ht : In (u, v) s) by (apply I; now left).
    rewrite (countb_occ pair_eqb pair_dec pair_eqb_ok), !(countb_occ N.eqb N.eq_dec N.eqb_eq), !x_nat.
    rewrite !x_div by lra.
    replace (INR (count_occ pair_dec s (u, v)) / INR (length xs)) with (freq pair_dec (u, v) s) by (unfold freq; now rewrite Ls).
    replace (INR (count_occ N.eq_dec (map fst s) u) / INR (length xs)) with (freq N.eq_dec u (map fst s)) by (unfold freq; now rewrite map_length, Ls).
    replace (INR (count_occ N.eq_dec (map snd s) v) / INR (length xs)) with (freq N.eq_dec v (map snd s)) by (unfold freq; now rewrite map_length, Ls).
    pose proof (freq_pos pair_dec _ _ Ht). pose proof (freq_pos N.eq_dec u _ (in_map fst _ _ Ht)). pose proof (freq_pos N.eq_dec v _ (in_map snd _ _ Ht)).
    cbn [fst snd] in *.
    assert (0 < freq N.eq_dec u (map fst s) * freq N.eq_dec v (map snd s)) by (apply Rmult_lt_0_compat; easy).
    rewrite x_mul, x_div by (apply Rgt_not_eq; easy). rewrite x_log2 by (apply Rdiv_lt_0_compat; easy). now rewrite x_mul.
  - rewrite (x_fold_add _ (fun t => freq pair_dec t s * pmi t)) by easy. f_equal. rewrite Rplus_0_l.
    rewrite (Rsum_permute _ (map (fun t => freq pair_dec t s * pmi t) (distinct pair_eqb s))) by apply Permutation_map, Ho.
    unfold mutual, mean. fold pmi. rewrite map_length, <- (sum_distinct pair_eqb pair_dec pair_eqb_ok pmi).
    unfold Rdiv. rewrite Rmult_comm, <- Rsum_map_scale. f_equal. apply map_ext. intros t. unfold freq. rewrite Ls. field. lra.
Qed.

(** Every bin number is below the number of bins, in any arithmetic. *)
Lemma bin_bound {F} {O : FOps F} (x : list F) b v : (0 < b)%nat -> In v (bin x b) -> (v < N.of_nat b)%N.
Proof.
  intros Hb. unfold bin. destruct (fold_left _ x _) as [mn mx]. intros H. apply in_map_iff in H as (u & <- & _). lia.
Qed.
Lemma length_bin {F} {O : FOps F} (x : list F) b : length (bin x b) = length x.
Proof. unfold bin. destruct (fold_left _ x _) as [mn mx]. apply map_length. Qed.

Definition f64_max : R := IZR (2 ^ 1024 - 2 ^ 971).
Lemma minval_max : @fminval xr XR = Fin (- f64_max). Proof. reflexivity. Qed.
Lemma x_bin x b : x <> [] -> (forall v, In v x -> - f64_max <= v <= f64_max) -> (0 < b)%nat -> (N.of_nat b <= two64)%N ->
  bin (map Fin x) b = map (cell (Rmin_list x) (Rmax_list x) b) x.
Proof.
  intros Hx Bd Hb Hc. unfold bin.
  assert (E : fold_left (fun '(mn, mx) v => (fmin mn v, fmax mx v)) (map Fin x) (fmaxval, fminval) =
              (Fin (Rmin_list x), Fin (Rmax_list x))).
  { assert (G : forall l a c, fold_left (fun '(mn, mx) v => (fmin mn v, fmax mx v)) (map Fin l) (Fin a, Fin c) =
                (Fin (fold_left Rmin l a), Fin (fold_left Rmax l c))).
    { induction l as [|v l IH]; intros a c; cbn [map fold_left]; [easy|]. now rewrite x_min, x_max, IH. }
    destruct x as [|v l]; [easy|]. rewrite minval_max. change (@fmaxval xr XR) with (Fin f64_max). rewrite G.
    cbn [fold_left Rmin_list Rmax_list]. destruct (Bd v (or_introl eq_refl)). now rewrite Rmin_right, Rmax_right. }
  rewrite E, map_map. apply map_ext_in. intros v Hv. set (lo := Rmin_list x). set (hi := Rmax_list x).
  destruct (Rmin_list_spec x Hx) as [_ Lo]. destruct (Rmax_list_spec x Hx) as [_ Hi]. fold lo in Lo. fold hi in Hi.
  specialize (Lo v Hv). specialize (Hi v Hv). pose proof (INR_pos b Hb) as Pb.
  rewrite !x_sub, x_nat, x_div by lra. unfold cell. destruct (Req lo hi) eqn:Z.
  - apply Req_true in Z. rewrite x_quot. replace (v - lo) with 0 by lra. replace ((hi - lo) / INR b) with 0 by (rewrite Z; unfold Rdiv; ring).
    rewrite quot_0_0. cbn. lia.
  - apply Req_false in Z. assert (0 < (hi - lo) / INR b) by (apply Rdiv_lt_0_compat; lra).
    rewrite x_div by lra. cbn [ffloor ftoN XR xmap xtoN]. rewrite Ztrunc_IZR.
    assert (0 <= Zfloor ((v - lo) / ((hi - lo) / INR b)))%Z.
    { rewrite <- (Zfloor_IZR 0). apply Zfloor_le. apply Rdiv_nonneg; lra. }
    generalize dependent two64. intros. lia.
Qed.

(** Normalised score of one grid. *)
Definition grid_score (x y : list R) (ij : nat * nat) : R :=
  mutual (combine (map (cell (Rmin_list x) (Rmax_list x) (fst ij)) x)
                  (map (cell (Rmin_list y) (Rmax_list y) (snd ij)) y)) / log2 (INR (Nat.min (fst ij) (snd ij))).

Lemma cell_bound lo hi b v : (0 < b)%nat -> (cell lo hi b v < N.of_nat b)%N.
Proof. intros H. unfold cell. destruct (Req lo hi); lia. Qed.
Lemma log2_pos k : (2 <= k)%nat -> 0 < log2 (INR k).
Proof.
  intros H. apply Rdiv_lt_0_compat; [|apply ln2_pos]. rewrite <- ln_1. apply ln_increasing; [lra|]. apply lt_1_INR. lia.
Qed.
Lemma grid_score_range x y ij : x <> [] -> length x = length y -> (2 <= fst ij)%nat -> (2 <= snd ij)%nat ->
  0 <= grid_score x y ij <= 1.
Proof.
  intros Hx L Hi Hj. unfold grid_score. pose proof (log2_pos (Nat.min (fst ij) (snd ij)) ltac:(lia)) as P.
  set (s := combine _ _). assert (Hs : s <> []) by (unfold s; destruct x, y; easy).
  split; [apply Rdiv_nonneg; [apply mutual_nonneg|lra]|].
  apply Rmult_le_reg_r with (1 := P). unfold Rdiv. rewrite Rmult_assoc, Rinv_l, Rmult_1_r, Rmult_1_l by lra.
  apply mutual_le; [easy|]. intros [u v] H. cbn [fst snd]. unfold s in H. pose proof (in_combine_l _ _ _ _ H) as H1. pose proof (in_combine_r _ _ _ _ H) as H2.
  apply in_map_iff in H1 as (? & <- & _). apply in_map_iff in H2 as (? & <- & _). split; apply cell_bound; lia.
Qed.
Definition model_grids (m : nat) := flat_map (fun i => map (fun j => (i, j)) (seq 2 (m / i - 1))) (seq 2 (m / 2 - 1)).
Lemma model_grids_spec m ij : In ij (model_grids m) <-> In ij (grids m).
Proof.
  destruct ij as [i j]. unfold model_grids, grids. rewrite in_flat_map, filter_In. cbn [fst snd]. rewrite Nat.leb_le, in_prod_iff, !in_seq. split.
  - intros (i' & Hi & Hj). apply in_map_iff in Hj as (j' & E & Hj). injection E as -> ->. apply in_seq in Hi. apply in_seq in Hj.
    assert (j <= m / i)%nat by lia. assert (i * j <= m)%nat.
    { pose proof (Nat.mul_div_le m i ltac:(lia)). nia. }
    nia.
  - intros ([Hi Hj] & H). exists i. split; [|apply in_map_iff; exists j; split; [easy|]]; apply in_seq.
    + assert (i <= m / 2)%nat by (apply Nat.div_le_lower_bound; nia). lia.
    + assert (j <= m / i)%nat by (apply Nat.div_le_lower_bound; nia). lia.
Qed.
Lemma x_mic_win ord m x y : visits_all ord -> x <> [] -> length x = length y -> (N.of_nat m <= two64)%N ->
  (forall v, In v x -> - f64_max <= v <= f64_max) -> (forall v, In v y -> - f64_max <= v <= f64_max) ->
  exists r, mic_win ord m (map Fin x, map Fin y) = Fin r /\ is_max (- f64_max :: map (grid_score x y) (grids m)) r.
Proof.
  intros Ho Hx L Hm Bx By. unfold mic_win. cbn [fst snd]. fold (model_grids m). rewrite minval_max.
  assert (Hy : y <> []) by (destruct x, y; easy).
  assert (G : forall l a, (forall ij, In ij l -> (2 <= fst ij)%nat /\ (2 <= snd ij)%nat /\ (fst ij <= m)%nat /\ (snd ij <= m)%nat) ->
    fold_left (fun max_mi '(i, j) => fmax (fdiv (mutual_info ord (bin (map Fin x) i) (bin (map Fin y) j)) (flog2 (fofnat (Nat.min i j)))) max_mi) l (Fin a) =
    Fin (fold_left Rmax (map (grid_score x y) l) a)).
  { induction l as [|[i j] l IH]; intros a B; [easy|]. cbn [fold_left map]. destruct (B (i, j) (or_introl eq_refl)) as (B1 & B2 & B3 & B4). cbn [fst snd] in *.
    rewrite !x_bin by (easy || lia). rewrite x_mutual_info by (rewrite ?map_length; easy || (destruct x; easy)).
    pose proof (log2_pos (Nat.min i j) ltac:(lia)). rewrite x_nat, x_log2 by (apply lt_0_INR; lia). rewrite x_div by lra.
    rewrite x_max, IH by (intros; apply B; now right). do 2 f_equal. rewrite Rmax_comm. reflexivity. }
  rewrite G.
  - eexists. split; [reflexivity|]. destruct (fold_Rmax_spec (map (grid_score x y) (model_grids m)) (- f64_max)) as [I M]. split.
    + destruct I as [I|I]; [now left|]. right. apply in_map_iff in I as (ij & <- & I). apply in_map. now apply model_grids_spec.
    + intros r [<-|Hr]; [apply M; now left|]. apply M. right. apply in_map_iff in Hr as (ij & <- & I2). apply in_map. now apply model_grids_spec.
  - intros ij H. apply model_grids_spec in H. unfold grids in H. apply filter_In in H as [H H2]. apply Nat.leb_le in H2.
    destruct ij as [i j]. cbn [fst snd] in *. apply in_prod_iff in H. rewrite !in_seq in H. nia.
Qed.

(** ** Number of cells *)
Definition mic_cells (w : nat) : nat := Z.to_nat (Zceil (Rpower (INR w) (6 / 10))).

Lemma Rpower_pos x y : 0 < Rpower x y. Proof. apply exp_pos. Qed.
Lemma power06_5 w : (0 < w)%nat -> Rpower (INR w) (6 / 10) ^ 5 = INR w ^ 3.
Proof.
  intros H. pose proof (INR_pos w H). rewrite <- (Rpower_pow 5) by apply Rpower_pos. rewrite Rpower_mult, <- (Rpower_pow 3) by easy.
  f_equal. cbn [INR]. lra.
Qed.
Lemma mic_cells_le w : (0 < w)%nat -> (0 <= Zceil (Rpower (INR w) (6 / 10)) <= Z.of_nat w)%Z.
Proof.
  intros H. split.
  - apply le_IZR. apply Rle_trans with (Rpower (INR w) (6 / 10)); [apply Rlt_le, Rpower_pos|apply Zceil_ub].
  - apply Zceil_glb. rewrite <- INR_IZR_INZ. rewrite <- (Rpower_1 (INR w)) at 2 by now apply INR_pos.
    apply Rle_Rpower; [|lra]. change 1 with (INR 1). apply le_INR. lia.
Qed.
Lemma x_mic_max_bins w : (0 < w)%nat -> (N.of_nat w < two64)%N -> mic_max_bins w = mic_cells w.
Proof.
  intros H Hb. unfold mic_max_bins. rewrite x_nat, x_frac.
  cbn [fpow XR xpow]. unfold Rltb. destruct (Rlt_dec 0 (INR w)); [|pose proof (INR_pos w H); lra].
  cbn [fceil ftoN XR xmap xtoN]. rewrite Ztrunc_IZR. unfold mic_cells. pose proof (mic_cells_le w H) as B.
  change (IZR 6 / IZR 10) with (6 / 10). revert B Hb. generalize (Zceil (Rpower (INR w) (6 / 10))) two64. intros. lia.
Qed.
(** At least 4 cells, the smallest grid, exactly from window 7 on. *)
Lemma mic_cells_4 w : (0 < w)%nat -> (4 <= mic_cells w)%nat <-> (7 <= w)%nat.
Proof.
  intros H. unfold mic_cells. pose proof (power06_5 w H) as E. pose proof (Rpower_pos (INR w) (6 / 10)) as P. set (t := Rpower _ _) in *.
  pose proof (mic_cells_le w H) as [B _]. fold t in B. split; intros G.
  - destruct (Nat.le_gt_cases 7 w) as [|L]; [easy|exfalso].
    assert (INR w <= 6) by (change 6 with (IZR 6); rewrite INR_IZR_INZ; apply IZR_le; lia).
    assert (3 < t).
    { assert (3 < Zceil t)%Z by lia. destruct (Rlt_le_dec 3 t) as [|L3]; [easy|]. assert (Zceil t <= 3)%Z by (apply Zceil_glb; easy). lia. }
    assert (3 ^ 5 <= t ^ 5) by (apply pow_incr; lra).
    assert (INR w ^ 3 <= 6 ^ 3) by (apply pow_incr; split; [apply pos_INR|easy]). lra.
  - assert (7 <= INR w) by (change 7 with (IZR 7); rewrite INR_IZR_INZ; apply IZR_le; lia).
    assert (7 ^ 3 <= INR w ^ 3) by (apply pow_incr; lra).
    assert (3 < t). { destruct (Rlt_le_dec 3 t) as [|L3]; [easy|]. assert (t ^ 5 <= 3 ^ 5) by (apply pow_incr; lra). lra. }
    assert (3 < Zceil t)%Z by (apply lt_IZR; eapply Rlt_le_trans; [|apply Zceil_ub]; easy). lia.
Qed.

(** ** Theorems *)

Definition mic_score (m : nat) (x y : list R) : R := Rmax_list (map (grid_score x y) (grids m)).

Lemma grids_ex m : (4 <= m)%nat -> In (2, 2)%nat (grids m).
Proof. intros H. apply filter_In. split; [|cbn [fst snd]; apply Nat.leb_le; lia]. apply in_prod; apply in_seq; lia. Qed.
Lemma grids_ge2 m ij : In ij (grids m) -> (2 <= fst ij)%nat /\ (2 <= snd ij)%nat.
Proof. intros H. apply filter_In in H as [H _]. destruct ij. apply in_prod_iff in H. rewrite !in_seq in H. cbn. lia. Qed.
Theorem mic_score_range m x y : (4 <= m)%nat -> x <> [] -> length x = length y -> 0 <= mic_score m x y <= 1.
Proof.
  intros Hm Hx L. pose proof (grids_ex m Hm) as G. destruct (Rmax_list_spec (map (grid_score x y) (grids m))) as [I M].
  { destruct (grids m); easy. }
  fold (mic_score m x y) in I, M. apply in_map_iff in I as (ij & E & I). rewrite <- E. apply grids_ge2 in I. now apply grid_score_range.
Qed.
Lemma f64_max_pos : 0 < f64_max.
Proof. unfold f64_max. apply IZR_lt. reflexivity. Qed.

(** From window 7 on [mic] is the best normalised mutual information over the
    grids of at most ceil(w^0.6) cells; it lies in [0,1] by [mic_score_range]. *)
Theorem mic_real ord a b w : visits_all ord -> (7 <= w)%nat -> (N.of_nat w < two64)%N ->
  (forall v, In v a -> - f64_max <= v <= f64_max) -> (forall v, In v b -> - f64_max <= v <= f64_max) ->
  exists o, mic ord (map Fin a) (map Fin b) w = Ok o /\
  aligned o (bars2 a b) (w - 1) NaN (fun i => Fin (mic_score (mic_cells w) (win w a i) (win w b i))).
Proof.
  intros Ho Hw Hb Ba Bb. unfold mic. zap. rewrite zip_windows_val by lia. cbn [bind]. eexists. split; [easy|].
  pose proof (@aligned_zip_windows xr xr NaN (mic_win ord (mic_max_bins w)) (map Fin a) (map Fin b) w ltac:(lia)) as A.
  unfold bars2 in *. rewrite !map_length in A. revert A. apply aligned_ext. intros i Hi. rewrite !x_win, x_mic_max_bins by (easy || lia).
  pose proof (proj2 (mic_cells_4 w ltac:(lia)) Hw) as H4. pose proof (mic_cells_le w ltac:(lia)) as [_ Hle].
  assert (La : length (win w a i) = w) by (apply length_win; lia). assert (Lb : length (win w b i) = w) by (apply length_win; lia).
  assert (Hx : win w a i <> []) by (intros E; rewrite E in La; cbn in La; lia).
  destruct (x_mic_win ord (mic_cells w) (win w a i) (win w b i)) as (r & E & M); try easy.
  - lia.
  - unfold mic_cells. revert Hb Hle. generalize two64. intros. lia.
  - intros v Hv. apply Ba. now apply In_win in Hv.
  - intros v Hv. apply Bb. now apply In_win in Hv.
  - rewrite E. f_equal. set (l := map (grid_score (win w a i) (win w b i)) (grids (mic_cells w))) in *.
    assert (Hl : l <> []). { pose proof (grids_ex _ H4). unfold l. destruct (grids _); easy. }
    apply (is_max_unique l); [|now apply Rmax_list_spec]. destruct M as [I M]. split; [|intros; apply M; now right].
    destruct I as [I|I]; [|easy]. exfalso. destruct (Rmax_list_spec l Hl) as [I2 _]. pose proof (M _ (or_intror I2)).
    pose proof (mic_score_range _ (win w a i) (win w b i) H4 Hx (eq_trans La (eq_sym Lb))) as [P _]. unfold mic_score in P. fold l in P. pose proof f64_max_pos. lra.
Qed.

(** With a window of 1 to 6 there is no grid, and every defined item is the
    lowest finite number. *)
Theorem mic_small_window ord (a b : list xr) w : (1 <= w <= 6)%nat ->
  exists o, mic ord a b w = Ok o /\ aligned o (bars2 a b) (w - 1) NaN (fun i => Fin (- f64_max)).
Proof.
  intros Hw. unfold mic. zap. rewrite zip_windows_val by lia. cbn [bind]. eexists. split; [easy|].
  pose proof (@aligned_zip_windows xr xr NaN (mic_win ord (mic_max_bins w)) a b w ltac:(lia)) as A.
  revert A. apply aligned_ext. intros i Hi. rewrite x_mic_max_bins by (try reflexivity; unfold two64; lia).
  assert (Hc : (mic_cells w < 4)%nat). { pose proof (mic_cells_4 w ltac:(lia)). lia. }
  unfold mic_win. rewrite <- minval_max. replace (mic_cells w / 2 - 1)%nat with 0%nat; [easy|].
  assert (mic_cells w / 2 < 2)%nat by (apply Nat.div_lt_upper_bound; lia). lia.
Qed.
Theorem mic_range_refuted : exists ord a b o r, visits_all ord /\
  mic ord (map Fin a) (map Fin b) 6 = Ok o /\ nth_error o 5 = Some (Fin r) /\ r < 0.
Proof.
  exists (fun l => l), [1; 2; 3; 4; 5; 6], [1; 2; 3; 4; 5; 6].
  destruct (mic_small_window (fun l => l) (map Fin [1; 2; 3; 4; 5; 6]) (map Fin [1; 2; 3; 4; 5; 6]) 6 ltac:(lia)) as (o & E & A).
  exists o, (- f64_max). repeat split; [intros l; apply Permutation_refl|exact E| |pose proof f64_max_pos; lra].
  destruct A as (_ & _ & A). apply (A 5%nat). cbn. lia.
Qed.

Lemma fold_left_ext {A B} (f g : A -> B -> A) l a : (forall a b, f a b = g a b) -> fold_left f l a = fold_left g l a.
Proof. intros H. revert a. induction l as [|b l IH]; intros a; cbn; [easy|]. now rewrite H, IH. Qed.
(** The order of the hash tables does not influence [mic] in exact arithmetic,
    whatever the data. *)
Theorem mic_order_independent ord1 ord2 (a b : list xr) w : visits_all ord1 -> visits_all ord2 -> mic ord1 a b w = mic ord2 a b w.
Proof.
  intros H1 H2. destruct (Nat.eq_dec w 0) as [->|Hw]; [reflexivity|]. unfold mic. zap. rewrite zip_windows_val by lia. cbn [bind]. do 2 f_equal.
  apply map_ext_in. intros [x y] Hxy. pose proof (in_combine_l _ _ _ _ Hxy) as Ix. pose proof (in_combine_r _ _ _ _ Hxy) as Iy.
  assert (Lx : length x = w) by (eapply windows_length; [|eassumption]; lia). assert (Ly : length y = w) by (eapply windows_length; [|eassumption]; lia).
  unfold mic_win. cbn [fst snd]. apply fold_left_ext. intros acc [i j].
  rewrite !x_mutual_info; try easy; rewrite ?length_bin; try lia;
    intros E; apply (f_equal (@length N)) in E; rewrite length_bin in E; cbn in E; lia.
Qed.
