(** * CasesLazy: iterators that are dropped before the value that panics. *)
From Coq Require Import Reals Lra Lia.
From Verif Require Import Base Num B64 XReal Spec Rank Scale Refute RankCorr Bars TrendShape Case Cases.
From Verif Require Import Distribution Regression Correlation Smooth Volume Trend Momentum Lazy LazyFacts.
Local Unset Implicit Arguments.
Local Open Scope nat_scope.

Section Any.
  Context {F : Type} {FO : FOps F}.
  Variables x y z : F.

  (** Four closes and two volumes: two values come out, the third pull panics. *)
  Example obv_take_case : exists o,
    take 2 (obv_it [x; y; z; x] [y; z]) = Ok o /\ length o = 2 /\ take 3 (obv_it [x; y; z; x] [y; z]) = Panic.
  Proof. eexists. repeat split; reflexivity. Qed.
  (** An empty list of resets: the call returns, the first pull panics. *)
  Example vwap_take_case :
    take 0 (vwap_it [x] [x] [x] [y] (Some [])) = Ok [] /\ take 1 (vwap_it [x] [x] [x] [y] (Some [])) = Panic.
  Proof. split; reflexivity. Qed.
  Example vwap_take_none_case : exists o,
    take 2 (vwap_it [x; y; z] [x; y; z] [x; y; z] [x; y; z] None) = Ok o /\ length o = 2.
  Proof. eexists. split; reflexivity. Qed.
  (** A window of one value for [skew]. *)
  Example skew_take_case : take 0 (skew_it [x; y] 1) = Ok [] /\ take 1 (skew_it [x; y] 1) = Panic /\ skew_it [x; y] 0 = Panic.
  Proof. repeat split; reflexivity. Qed.
  Example rainbow_take_case : exists o,
    take 10 (rainbow_it (repeat x 12) 2 13) = Ok o /\ length o = 10 /\ take 11 (rainbow_it (repeat x 12) 2 13) = Panic.
  Proof. eexists. repeat split; reflexivity. Qed.
  Example mama_take_case : exists o, take 6 (mama_it [x; y; z; x; y; z; x; y] None None) = Ok o /\ length o = 6.
  Proof. eexists. split; reflexivity. Qed.
  (** Runs longer than the window: the warm-up comes out, the first entropy panics. *)
  Example approx_entropy_take_case : exists o,
    entropy_tol [x; y; z; x] (Some y) = Ok y /\
    take 2 (approx_entropy_it [x; y; z; x] 3 (Some 5) (Some y)) = Ok o /\ length o = 2 /\
    take 3 (approx_entropy_it [x; y; z; x] 3 (Some 5) (Some y)) = Panic.
  Proof. eexists. repeat split; reflexivity. Qed.
  Example sample_entropy_take_case : exists t o,
    entropy_tol [x; y; z; x] None = Ok t /\
    take 2 (sample_entropy_it [x; y; z; x] 3 (Some 5) None) = Ok o /\ length o = 2 /\
    take 3 (sample_entropy_it [x; y; z; x] 3 (Some 5) None) = Panic.
  Proof. do 2 eexists. repeat split; reflexivity. Qed.
  Example krcc_take_case : exists o, take 3 (krcc_it [x; y; z] [z; y; x; y] 2) = Ok o /\ length o = 3.
  Proof.
    destruct (krcc_pulls [x; y; z] [z; y; x; y] 2 3) as [[B _]|(_ & o & E & L)]; [|exists o; auto].
    destruct B as [B|[B _]]; [easy|now vm_compute in B].
  Qed.
  (** Item number [2^31 - 1] of [emae]. *)
  Example emae_take_case : exists d e k o,
    take k (emae_it d e) = Ok o /\ length o = k /\ take (k + 1) (emae_it d e) = Panic.
  Proof.
    set (n := N.to_nat (2 ^ 31 - 1)). assert (Hn : N.of_nat n = (2 ^ 31 - 1)%N) by apply N2Nat.id.
    assert (Pn : 0 < n) by (destruct n; [easy|lia]). clearbody n.
    exists (repeat x n), (repeat y n), (n - 1).
    destruct (emae_pulls (repeat x n) (repeat y n) (n - 1)) as [[B _]|(_ & o & E & L)];
      rewrite !repeat_length in *.
    - exfalso. replace (Nat.min (n - 1) (Nat.min n n)) with (n - 1) in B by lia. revert B. rewrite <- Hn. lia.
    - exists o. split; [easy|]. split; [lia|].
      destruct (emae_pulls (repeat x n) (repeat y n) (n - 1 + 1)) as [[_ E']|[B _]]; [easy|].
      exfalso. apply B. rewrite !repeat_length, <- Hn. lia.
  Qed.
  Example mase_take_case : exists o, take 2 (mase_it [x; y; z] [y; z; x]) = Ok o /\ length o = 2.
  Proof. eexists. split; reflexivity. Qed.
  Example pulled_case : exists (s : stream F) k o, drain s = Panic /\ take k (Ok s) = Ok o /\ 0 < length o.
  Proof. exists [Ok x; Panic; Ok y], 1, [x]. cbn. repeat split. lia. Qed.
End Any.

Example quantile_take_case (m : libm) : exists x,
  prints (take 2 (@quantile_it f64 (B64 m) [int 1; int 2; int 3] 2 (int 50))) 1 x /\ @fltb f64 (B64 m) (int 1) x = true.
Proof. seen m. Qed.
Lemma hurst_len fuel (d : list xr) w mw o : hurst fuel d w mw = Some (Ok o) -> length o = Nat.max (w - 1) (length d).
Proof.
  intros E. destruct (hurst_sizes fuel w (flog10 (fofnat (unwrap_or mw 4)))) as [sz|] eqn:S.
  - destruct (hurst_outcome fuel d w mw sz S) as (r & R1 & [[_ R2]|(_ & o' & R2 & L)]); congruence.
  - unfold hurst in E. now rewrite S in E.
Qed.
Example hurst_take_case : exists fuel r o, hurst_it fuel (xseries closes 20) 8 None = Some r /\ take 9 r = Ok o /\ length o = 9.
Proof.
  destruct hurst_ok as (fuel & o & _ & E & _). exists fuel.
  pose proof (hurst_collect fuel (xseries closes 20) 8 None) as C. rewrite E in C.
  destruct (hurst_it fuel (xseries closes 20) 8 None) as [r|]; [|easy]. injection C as C.
  exists r, (firstn 9 o). split; [easy|]. split; [now apply pulled_prefix|].
  rewrite firstn_length, (hurst_len _ _ _ _ _ E). easy.
Qed.
Example srcc_take_case : exists srt o, (forall l : list xr, comparable l -> sorts (srt l) l) /\
  take 3 (srcc_it srt (map Fin [1; 2; 4; 3]%R) (map Fin [4; 2; 2; 1]%R) 2) = Ok o /\ length o = 3.
Proof.
  destruct (srcc_pulls stable_argsort (map Fin [1; 2; 4; 3]%R) (map Fin [4; 2; 2; 1]%R) 2 3
    stable_argsort_sorts (comparable_R _) (comparable_R _)) as [[B _]|(_ & o & E & L)]; [easy|].
  exists stable_argsort, o. split; [exact stable_argsort_sorts|]. auto.
Qed.
(** Windows under four values. *)
Example hoeffd_take_case : exists srt o, (forall l : list xr, comparable l -> sorts (srt l) l) /\
  take 1 (hoeffd_it srt (map Fin [1; 2; 4; 3]%R) (map Fin [4; 2; 2; 1]%R) 2) = Ok o /\ length o = 1 /\
  take 2 (hoeffd_it srt (map Fin [1; 2; 4; 3]%R) (map Fin [4; 2; 2; 1]%R) 2) = Panic.
Proof.
  pose proof (fun k => hoeffd_pulls stable_argsort (map Fin [1; 2; 4; 3]%R) (map Fin [4; 2; 2; 1]%R) 2 k
    stable_argsort_sorts (comparable_R _) (comparable_R _)) as H.
  rewrite !map_length in H. cbn [length] in H.
  destruct (H 1) as [[B _]|(_ & o & E & L)]; [lia|]. exists stable_argsort, o.
  split; [exact stable_argsort_sorts|]. split; [easy|]. split; [easy|].
  destruct (H 2) as [[_ P]|[B _]]; [easy|]. exfalso. apply B. right. lia.
Qed.
