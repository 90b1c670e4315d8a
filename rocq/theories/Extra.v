(** * Extra: forecast error [emae] in exact arithmetic. *)
From Coq Require Import Reals Lra Lia.
From Verif Require Import Tac Regression RSpec XRFacts Bars DistReal RegReal VolumeReal VolatReal MomReal.
Local Unset Implicit Arguments.
Local Open Scope R_scope.

(** Total error, and total of the larger of the two values, up to bar [i]. *)
Definition total_err (a b : nat -> R) (i : nat) : R := sum_bars (fun k => Rabs (a k - b k)) 0 i.
Definition total_env (a b : nat -> R) (i : nat) : R := sum_bars (fun k => Rmax (a k) (b k)) 0 i.
(** The published metric. *)
Definition emae_published (a b : nat -> R) (i : nat) : R := 100 * (total_err a b i / total_env a b i).

Theorem emae_real a b n : (N.of_nat n < 2 ^ 31 - 1)%N -> (forall i, (i < n)%nat -> total_env a b i <> 0) ->
  exists o, emae (xseries a n) (xseries b n) = Ok o /\
  aligned o n 0 NaN (fun i => Fin (emae_published a b i / INR (i + 1))).
Proof.
  intros Hn H0. unfold emae, zip_i32, xseries. rewrite combine_series, map_length, seq_length.
  rewrite (proj2 (N.ltb_lt _ _) Hn). cbn [bind]. eexists. split; [reflexivity|].
  replace (seq 1 n) with (series (fun k => (k + 1)%nat) n) by (unfold series; rewrite <- seq_shift; apply map_ext; intros; lia).
  fold (series (fun k => (Fin (a k), Fin (b k))) n). rewrite combine_series.
  rewrite (scan_inv_bars _ (fun i => match i with O => (Fin 0, Fin 0) | S j => (Fin (total_err a b j), Fin (total_env a b j)) end) (fun i => Fin (emae_published a b i / INR (i + 1)))).
  - apply aligned_bars0.
  - now rewrite x_lit.
  - intros i Hi.
    assert (E : forall s, match i with O => (Fin 0, Fin 0) | S j => (Fin (total_err a b j), Fin (total_env a b j)) end = s ->
      (fadd (fst s) (Fin (Rabs (a i - b i))) = Fin (total_err a b i)) /\ (fadd (snd s) (Fin (Rmax (a i) (b i))) = Fin (total_env a b i))).
    { intros s <-. destruct i as [|j]; cbn [fst snd]; rewrite !x_add; unfold total_err, total_env.
      - rewrite !sum_bars_single. split; f_equal; lra.
      - rewrite !sum_bars_last by lia. split; reflexivity. }
    destruct (match i with O => _ | S j => _ end) as [s0 s1]. destruct (E _ eq_refl) as [E0 E1]. cbn [fst snd] in E0, E1.
    rewrite x_sub, x_abs, x_max, E0, E1. rewrite x_div by (apply H0; lia). rewrite x_lit, x_mul, x_nat, x_div by (apply INR_neq0; lia).
    unfold emae_published. do 2 f_equal. unfold Rdiv. ring.
Qed.
(** A constant error does not print a constant metric: the code divides once
    more by the number of bars. *)
Theorem emae_not_published : exists a b n o i v, emae (xseries a n) (xseries b n) = Ok o /\ nth_error o i = Some (Fin v) /\ (forall k, a k = 2 /\ b k = 1) /\ emae_published a b i = 50 /\ v = 25.
Proof.
  exists (fun _ => 2), (fun _ => 1), 2%nat.
  assert (T : forall i, total_env (fun _ => 2) (fun _ => 1) i = 2 * INR (i + 1)).
  { intros i. unfold total_env, sum_bars. rewrite Nat.sub_0_r, (map_ext_in _ (fun _ => 2)), Rsum_const by (intros; rewrite Rmax_left; lra). rewrite seq_length. ring. }
  destruct (emae_real (fun _ => 2) (fun _ => 1) 2) as (o & E & (_ & _ & A)); [reflexivity| |].
  - intros i _. rewrite T. pose proof (INR_pos (i + 1) ltac:(lia)). lra.
  - exists o, 1%nat. eexists. split; [exact E|]. split; [apply A; lia|].
    assert (P : emae_published (fun _ => 2) (fun _ => 1) 1 = 50).
    { unfold emae_published. rewrite T. unfold total_err, sum_bars. cbn [Nat.add Nat.sub seq map]. rewrite !Rsum_cons, Rsum_nil. rewrite Rabs_pos_eq by lra. cbn. lra. }
    split; [easy|]. split; [exact P|]. rewrite P. cbn. lra.
Qed.
