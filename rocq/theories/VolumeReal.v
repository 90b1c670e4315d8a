(** * volume.rs: what the indicators compute.

    Series are given bar by bar: [series h n] is the list [h 0 .. h (n-1)]. *)

From Coq Require Import Sorted.
From Verif Require Export Bars VolShape.
Local Unset Implicit Arguments.

(** ** Any arithmetic *)
Section Gen.
  Context {F : Type} {FO : FOps F}.
  Local Open Scope F_scope.

  (** The volume index of [pvi] ([up = fgtb]) and [nvi] ([up = fltb]): 100 at
      first, moved by the price ratio on the bars whose volume compares so. *)
  Fixpoint vol_index (up : F -> F -> bool) (c v : nat -> F) (i : nat) : F :=
    match i with
    | O => #100
    | S j => if up (v (S j)) (v j) then vol_index up c v j * (c (S j) / c j) else vol_index up c v j
    end.
  Lemma vi_bars up c v n : scan (vi_step up) #100 (combine (windows 2 (series c n)) (windows 2 (series v n)))
    = map (vol_index up c v) (seq 1 (n - 1)).
  Proof.
    rewrite !windows2_series, combine_bars, Nat.min_id.
    rewrite (scan_inv_bars (vi_step up) (fun i => vol_index up c v (i - 1)) (vol_index up c v)); [easy|easy|].
    intros i Hi. destruct i as [|j]; [lia|]. replace (S j - 1)%nat with j by lia. replace (S (S j) - 1)%nat with (S j) by lia.
    unfold vi_step. cbn [at_ nth vol_index]. now destruct (up (v (S j)) (v j)).
  Qed.
  Theorem pvi_values c v n : aligned (pvi (series c n) (series v n)) n 1 fnan (vol_index fgtb c v).
  Proof. unfold pvi. rewrite vi_bars. now apply aligned_bars1. Qed.
  Theorem nvi_values c v n : aligned (nvi (series c n) (series v n)) n 1 fnan (vol_index fltb c v).
  Proof. unfold nvi. rewrite vi_bars. now apply aligned_bars1. Qed.
  (** The index is repeated on every other bar. *)
  Theorem vol_index_repeats up c v i : up (v (S i)) (v i) = false -> vol_index up c v (S i) = vol_index up c v i.
  Proof. intros H. cbn. now rewrite H. Qed.

  (** [obv]: each bar adds the signed volume to the total before it. *)
  Fixpoint obv_total (c v : nat -> F) (i : nat) : F :=
    match i with O => #0 | S j => obv_total c v j + fsignum (c (S j) - c j) * v (S j) end.
  Theorem obv_values c v n : exists o, obv (series c n) (series v n) = Ok o /\ aligned o n 1 fnan (obv_total c v).
  Proof.
    unfold obv. rewrite windows2_series. set (l := enumerate _).
    assert (El : l = map (fun k => (k - 1, [c (k - 1)%nat; c k])%nat) (seq 1 (n - 1))).
    { unfold l, enumerate. rewrite map_length, seq_length. rewrite <- (map_id (seq 0 (n - 1))).
      rewrite (shift_bars 1 (fun x => x)), combine_bars, Nat.min_id. reflexivity. }
    rewrite El. clear l El.
    set (g := fun (s : F) (x : nat * list F) => let s' := s + fsignum (at_ (snd x) 1 - at_ (snd x) 0) * at_ (series v n) (fst x + 1) in (s', s')).
    rewrite (@rscan_Ok_scan _ _ _ (obv_step (series v n)) g).
    - cbn [bind]. eexists. split; [reflexivity|].
      rewrite (scan_inv_bars g (fun i => obv_total c v (i - 1)) (obv_total c v)); [now apply aligned_bars1|easy|].
      intros i Hi. destruct i as [|j]; [lia|]. replace (S j - 1)%nat with j by lia. replace (S (S j) - 1)%nat with (S j) by lia.
      unfold g. cbn [fst snd obv_total]. rewrite at_series by lia. cbn [at_ nth]. replace (j + 1)%nat with (S j) by lia. reflexivity.
    - intros s [i p] Hin. apply in_map_iff in Hin as (k & E & Hk). injection E as <- <-. apply in_seq in Hk.
      unfold obv_step. rewrite idx_series by lia. cbn [bind]. unfold g. cbn [fst snd]. rewrite at_series by lia. reflexivity.
  Qed.

  (** [vwma]: weighted sum over the window, divided by the sum of the volumes. *)
  Theorem vwma_values d v n w : (0 < w)%nat -> exists o, vwma (series d n) (series v n) w = Ok o /\
    aligned o n (w - 1) fnan (fun i => fold_left (fun acc k => acc + d k * v k) (seq (i + 1 - w) w) #0 / fsum (last_bars w v i)).
  Proof.
    intros Hw. unfold vwma. zap. unfold series. rewrite !windows_bars by easy. eexists. split; [reflexivity|].
    rewrite combine_bars, map_map, Nat.min_id. cbn [plus]. replace (0 + w - 1)%nat with (w - 1)%nat by lia. apply aligned_bars_ext; [lia|]. intros i Hi.
    unfold vwma_win. cbn [fst snd]. rewrite combine_last_bars. unfold last_bars at 1. now rewrite fold_left_map.
  Qed.

  (** [cmf] *)
  Theorem cmf_values h l c v n w : (0 < w)%nat -> exists o, cmf (series h n) (series l n) (series c n) (series v n) w = Ok o /\
    aligned o n (w - 1) fnan (fun i =>
      fsum (last_bars w (fun k => v k * ((c k - l k) - (h k - c k)) / (h k - l k)) i) / fsum (last_bars w v i)).
  Proof.
    intros Hw. unfold cmf. zap. rewrite zip4_series, map_map. unfold series. rewrite !windows_bars by easy. cbn [bind plus]. eexists. split; [reflexivity|].
    rewrite combine_bars, map_map, Nat.min_id. cbn [plus]. replace (0 + w - 1)%nat with (w - 1)%nat by lia. now apply aligned_bars; lia.
  Qed.

  (** [bw_mfi] *)
  Theorem bw_mfi_values h l v n : bw_mfi (series h n) (series l n) (series v n) = series (fun k => (h k - l k) / v k * #1000000) n.
  Proof. unfold bw_mfi. rewrite zip3_series, map_map. reflexivity. Qed.

  (** [ad]: running totals of the money-flow volume. *)
  Fixpoint total_from (a : nat) (s : F) (d : nat -> F) (m : nat) : F :=
    match m with O => s | S p => total_from a s d p + d (a + p)%nat end.
  Lemma total_bars {A} (g : F -> A -> F * F) (f : nat -> A) (d : nat -> F) s a n :
    (forall r i, (a <= i < a + n)%nat -> g r (f i) = (r + d i, r + d i)) ->
    scan g s (map f (seq a n)) = map (fun i => total_from a s d (i + 1 - a)) (seq a n).
  Proof.
    intros H. apply (scan_inv_bars g (fun i => total_from a s d (i - a))); [now rewrite Nat.sub_diag|]. intros i Hi. rewrite H by easy.
    replace (S i - a)%nat with (S (i - a)) by lia. replace (i + 1 - a)%nat with (S (i - a)) by lia. cbn [total_from].
    now replace (a + (i - a))%nat with i by lia.
  Qed.
  Theorem ad_values h l c v n alt : unwrap_or alt false = false ->
    exists o, ad (series h n) (series l n) (series c n) (series v n) alt = Ok o /\
    aligned o n 0 fnan (fun i => total_from 0 #0 (fun k => ((c k - l k) - (h k - c k)) / (h k - l k) * v k) (i + 1)).
  Proof.
    intros E. unfold ad. rewrite E. cbn [negb]. eexists. split; [reflexivity|]. rewrite zip4_series.
    rewrite (total_bars _ _ (fun k => ((c k - l k) - (h k - c k)) / (h k - l k) * v k)).
    - eapply aligned_ext; [|apply aligned_bars0]. intros i Hi. cbn beta. f_equal. lia.
    - intros. reflexivity.
  Qed.
  Lemma tail4_series (h l c v : nat -> F) n : (0 < n)%nat -> tail4 (series h n) (series l n) (series c n) (series v n) =
    Ok (map (fun k => (h k, l k, c k, v k)) (seq 1 (n - 1))).
  Proof.
    intros Hn. unfold tail4. rewrite !slice_from_series by lia. cbn [bind]. unfold zip4, zip3. now rewrite !combine_bars, !Nat.min_id.
  Qed.
  Theorem ad_alt_values h l c v n : (0 < n)%nat ->
    exists o, ad (series h n) (series l n) (series c n) (series v n) (Some true) = Ok o /\
    aligned o n 1 fnan (fun i => total_from 1 #0 (fun k =>
      (if fgtb (c k) (c (k - 1)%nat) then c k - fmin (l k) (c (k - 1)%nat) else c k - fmax (h k) (c (k - 1)%nat)) * v k) i).
  Proof.
    intros Hn. unfold ad. cbn [unwrap_or negb]. rewrite tail4_series by easy. cbn [bind]. rewrite idx_series by easy. cbn [bind].
    eexists. split; [reflexivity|]. match goal with |- context [total_from 1 _ ?e] => set (d := e) end. 
    rewrite (scan_inv_bars ad_alt_step (fun i => (c (i - 1)%nat, total_from 1 #0 d (i - 1))) (total_from 1 #0 d)); [now apply aligned_bars1|easy|].
    intros i Hi. destruct i as [|j]; [lia|]. replace (S j - 1)%nat with j by lia. replace (S (S j) - 1)%nat with (S j) by lia.
    cbn [ad_alt_step total_from plus]. unfold d. cbn [minus]. rewrite Nat.sub_0_r. reflexivity.
  Qed.
  (** [vpt] *)
  Theorem vpt_values c v n : (0 < n)%nat -> exists o, vpt (series c n) (series v n) = Ok o /\
    aligned o n 1 fnan (fun i => total_from 1 #0 (fun k => v k * (c k - c (k - 1)%nat) / c (k - 1)%nat) i).
  Proof.
    intros Hn. unfold vpt. rewrite slice_from_series, windows2_series by lia. cbn [bind]. eexists. split; [reflexivity|].
    rewrite combine_bars, Nat.min_id.
    rewrite (total_bars vpt_step _ (fun k => v k * (c k - c (k - 1)%nat) / c (k - 1)%nat)) by (intros; reflexivity).
    eapply aligned_ext; [|apply aligned_bars1; reflexivity]. intros i Hi. cbn beta. f_equal. lia.
  Qed.
  Lemma steps3_series (c v : nat -> F) n : (0 < n)%nat -> steps3 (series c n) (series v n) = Ok (map (fun k => (c (k - 1)%nat, c k, v k)) (seq 1 (n - 1))).
  Proof.
    intros Hn. unfold steps3. rewrite length_series. unfold usub. rewrite (proj2 (Nat.leb_le 1 n)) by lia. cbn [bind].
    rewrite slice_to_series, !slice_from_series by lia. cbn [bind]. unfold zip3. rewrite (shift_bars 1 c 0), !combine_bars, !Nat.min_id. reflexivity.
  Qed.
  (** [tvi]: the direction flips only on a move larger than the tick; the volume
      is added or subtracted accordingly. *)
  Fixpoint tvi_dir (tick : F) (c : nat -> F) (i : nat) : bool :=
    match i with
    | O => true
    | S j => if fgtb (c (S j) - c j) tick then true else if fgtb (c j - c (S j)) tick then false else tvi_dir tick c j
    end.
  Theorem tvi_values tick c v n : (0 < n)%nat -> exists o, tvi (series c n) (series v n) tick = Ok o /\
    aligned o n 1 fnan (fun i => total_from 1 #0 (fun k => (if tvi_dir tick c k then #1 else flit (-1) 1) * v k) i).
  Proof.
    intros Hn. unfold tvi. rewrite steps3_series by easy. cbn [bind]. eexists. split; [reflexivity|]. match goal with |- context [total_from 1 _ ?e] => set (d := e) end.
    rewrite (scan_inv_bars (tvi_step tick) (fun i => (tvi_dir tick c (i - 1), total_from 1 #0 d (i - 1))) (total_from 1 #0 d)); [now apply aligned_bars1|easy|].
    intros i Hi. destruct i as [|j]; [lia|]. replace (S j - 1)%nat with j by lia. replace (S (S j) - 1)%nat with (S j) by lia.
    cbn [tvi_step total_from plus tvi_dir]. unfold d, fdir. cbn [tvi_dir]. reflexivity.
  Qed.

  (** [vwap]: the bar the current session started at: the latest reset index not
      after bar [i], or the first bar. *)
  Definition session (rs : list nat) (i : nat) : nat := list_max (filter (fun r => r <=? i)%nat rs).

  Lemma filter_all {A} (p : A -> bool) l : (forall x, In x l -> p x = true) -> filter p l = l.
  Proof. induction l as [|a l IH]; intros H; [easy|]. cbn. rewrite H by now left. f_equal. apply IH. intros. apply H. now right. Qed.
  Lemma filter_none {A} (p : A -> bool) l : (forall x, In x l -> p x = false) -> filter p l = [].
  Proof. induction l as [|a l IH]; intros H; [easy|]. cbn. rewrite H by now left. apply IH. intros. apply H. now right. Qed.
  Lemma increasing_split rs i : StronglySorted lt rs -> In i rs ->
    exists a b, rs = a ++ i :: b /\ (forall x, In x a -> x < i)%nat /\ (forall x, In x b -> i < x)%nat.
  Proof.
    intros S H. apply in_split in H as (a & b & ->). exists a, b. split; [easy|]. clear - S. induction a as [|x a IH].
    - split; [easy|]. apply StronglySorted_inv in S as [_ Fa]. now rewrite Forall_forall in Fa.
    - cbn in S. apply StronglySorted_inv in S as [S Fa]. rewrite Forall_forall in Fa. destruct (IH S) as [H1 H2]. split; [|easy].
      intros y [<-|Hy]; [apply Fa, in_or_app; right; now left|auto].
  Qed.
  Lemma session_hit rs i : In i rs -> session rs i = i.
  Proof.
    intros H. unfold session. apply Nat.le_antisymm.
    - apply list_max_le. apply Forall_forall. intros x Hx. apply filter_In in Hx as [_ Hx]. now apply Nat.leb_le.
    - assert (M : forall x l, In x l -> (x <= list_max l)%nat).
      { intros x l Hx. assert (L := proj1 (list_max_le l (list_max l)) (le_n _)). rewrite Forall_forall in L. now apply L. }
      apply M. apply filter_In. split; [easy|]. now apply Nat.leb_le.
  Qed.
  Lemma session_miss rs i : ~ In (S i) rs -> session rs (S i) = session rs i.
  Proof.
    intros H. unfold session. f_equal. apply filter_ext_in. intros r Hr. assert (r <> S i) by (intros ->; easy). lia.
  Qed.
  Lemma session_le rs i : (session rs i <= i)%nat.
  Proof. apply list_max_le. apply Forall_forall. intros x Hx. apply filter_In in Hx as [_ Hx]. now apply Nat.leb_le. Qed.

  Theorem vwap_values h l c v n resets : resets <> Some [] ->
    StronglySorted lt (unwrap_or resets [n]) ->
    exists o, vwap (series h n) (series l n) (series c n) (series v n) resets = Ok o /\
    aligned o n 0 fnan (fun i =>
      let s := session (unwrap_or resets [n]) i in
      total_from s #0 (fun k => (h k + l k + c k) / #3 * v k) (i + 1 - s) / total_from s #0 v (i + 1 - s)).
  Proof.
    intros Hne Srt. unfold vwap. rewrite length_series. set (rs := unwrap_or resets [n]) in *.
    assert (Hrs : rs <> []) by (unfold rs; destruct resets as [[|]|]; cbn; congruence).
    rewrite zip4_series, enumerate_bars.
    set (d := fun k => (h k + l k + c k) / #3 * v k).
    set (tot := fun (e : nat -> F) i => match i with O => #0 | S j => total_from (session rs j) #0 e (S j - session rs j) end).
    set (st := fun i => (tot d i, tot v i, filter (fun r => i <=? r)%nat rs ++ filter (fun r => r <? i)%nat rs)).
    set (out := fun i => let s := session rs i in total_from s #0 d (i + 1 - s) / total_from s #0 v (i + 1 - s)).
    rewrite (rscan_inv_bars vwap_step st out).
    - eexists. split; [reflexivity|]. apply aligned_bars0.
    - unfold st. cbn [tot]. rewrite filter_all by easy. rewrite filter_none; [now rewrite app_nil_r|]. intros x _. apply Nat.ltb_ge; lia.
    - intros i Hi. unfold st at 1. unfold vwap_step.
      assert (T : forall e, tot e (Datatypes.S i) = total_from (session rs i) #0 e (i + 1 - session rs i)) by (intros; unfold tot; do 2 f_equal; lia).
      destruct (in_dec Nat.eq_dec i rs) as [Hin|Hin].
      + destruct (increasing_split rs i Srt Hin) as (a & b & E & Ha & Hb).
        assert (E1 : filter (fun r => i <=? r)%nat rs = i :: b).
        { rewrite E, filter_app, filter_none by (intros x Hx; specialize (Ha x Hx); lia). cbn. rewrite Nat.leb_refl. f_equal. apply filter_all. intros x Hx. specialize (Hb x Hx). lia. }
        assert (E2 : filter (fun r => Datatypes.S i <=? r)%nat rs = b).
        { rewrite E, filter_app, filter_none by (intros x Hx; specialize (Ha x Hx); lia). cbn [filter app].
          rewrite (proj2 (Nat.leb_gt (Datatypes.S i) i)) by lia. apply filter_all. intros x Hx. specialize (Hb x Hx). lia. }
        assert (E3 : filter (fun r => r <? i)%nat rs = a).
        { rewrite E, filter_app, filter_all by (intros x Hx; specialize (Ha x Hx); lia). cbn [filter]. rewrite Nat.ltb_irrefl.
          rewrite filter_none, app_nil_r; [easy|]. intros x Hx. specialize (Hb x Hx). lia. }
        assert (E4 : filter (fun r => r <? Datatypes.S i)%nat rs = a ++ [i]).
        { rewrite E, filter_app, filter_all by (intros x Hx; specialize (Ha x Hx); lia). cbn [filter].
          rewrite (proj2 (Nat.ltb_lt i (Datatypes.S i))) by lia. rewrite filter_none; [easy|]. intros x Hx. specialize (Hb x Hx). lia. }
        rewrite E1, E3. cbn [app]. unfold idx. cbn [nth_error bind]. rewrite Nat.eqb_refl. cbn [rotate1].
        unfold st. rewrite !T, E2, E4. unfold out. rewrite (session_hit rs i Hin). replace (i + 1 - i)%nat with 1%nat by lia.
        cbn [total_from]. rewrite Nat.add_0_r, app_assoc. reflexivity.
      + set (q := filter (fun r => i <=? r)%nat rs ++ filter (fun r => r <? i)%nat rs).
        assert (Q : forall x, In x q -> x <> i).
        { intros x Hx ->. apply in_app_or in Hx. destruct Hx as [Hx|Hx]; apply filter_In in Hx; easy. }
        assert (Qn : q <> []).
        { destruct rs as [|x rs'] eqn:Ers; [easy|]. assert (Hx : In x q).
          { apply in_or_app. destruct (Nat.le_gt_cases i x); [left|right]; apply filter_In; (split; [now left|lia]). }
          intros E0. now rewrite E0 in Hx. }
        assert (E5 : filter (fun r => Datatypes.S i <=? r)%nat rs ++ filter (fun r => r <? Datatypes.S i)%nat rs = q).
        { unfold q. f_equal; apply filter_ext_in; intros x Hx; assert (x <> i) by (intros ->; easy); lia. }
        destruct q as [|r q']; [easy|].
        unfold idx. cbn [nth_error bind]. rewrite (proj2 (Nat.eqb_neq i r)) by (intros E0; apply (Q r); [now left|easy]).
        unfold st. rewrite !T, E5. unfold out.
        assert (G : forall e : nat -> F, total_from (session rs i) #0 e (i + 1 - session rs i) = tot e i + e i).
        { intros e. destruct i as [|j].
          - cbn [tot]. pose proof (session_le rs 0). replace (session rs 0) with 0%nat by lia. reflexivity.
          - rewrite session_miss by easy. pose proof (session_le rs j). cbn [tot].
            replace (Datatypes.S j + 1 - session rs j)%nat with (Datatypes.S (Datatypes.S j - session rs j)) by lia. cbn [total_from].
            do 2 f_equal. lia. }
        cbv zeta. rewrite !G. reflexivity.
  Qed.

  (** [mfi] *)
  Definition typ (h l c : nat -> F) (k : nat) : F := (h k + l k + c k) / #3.
  Theorem mfi_values h l c v n w : (0 < w)%nat -> (0 < n)%nat ->
    exists o, mfi (series h n) (series l n) (series c n) (series v n) w = Ok o /\
    aligned o n w fnan (fun i =>
      let tp := typ h l c in
      let up := last_bars w (fun k => if fgtb (tp k) (tp (k - 1)%nat) then tp k * v k else #0) i in
      let down := last_bars w (fun k => if tp k <? tp (k - 1)%nat then tp k * v k else #0) i in
      #100 - #100 / (#1 + fsum up / fsum down)).
  Proof.
    intros Hw Hn. unfold mfi. rewrite tail4_series by easy. cbn [bind]. rewrite !idx_series by easy. cbn [bind].
    rewrite (scan_inv_bars mfi_step (fun i => typ h l c (i - 1)%nat) (fun k =>
      (if fgtb (typ h l c k) (typ h l c (k - 1)%nat) then typ h l c k * v k else #0,
       if typ h l c k <? typ h l c (k - 1)%nat then typ h l c k * v k else #0))).
    - rewrite !map_map. cbn [fst snd]. rewrite !rwindows_bars by easy. cbn [bind]. eexists. split; [reflexivity|].
      rewrite combine_bars, map_map, Nat.min_id. replace (1 + w - 1)%nat with w by lia. apply aligned_bars_ext; [lia|]. reflexivity.
    - reflexivity.
    - intros i Hi. replace (S i - 1)%nat with i by lia. reflexivity.
  Qed.

  (** [twiggs]: ratio of two Wilder sums. *)
  Definition wsum_from (w k : nat) (f : nat -> F) (i : nat) : F :=
    fold_left (fun s x => s * fofnat (w - 1) / fofnat w + x) (map f (seq (k + w - 1) (i + 1 - (k + w - 1)))) (fsum (map f (seq k (w - 1)))).
  Lemma wilder_sum_bars (f : nat -> F) w a n : (0 < w)%nat -> (w - 1 <= n)%nat ->
    wilder_sum (map f (seq a n)) w = Ok (map (wsum_from w a f) (seq (a + w - 1) (n + 1 - w))).
  Proof.
    intros Hw Hn. unfold wilder_sum, usub. rewrite (proj2 (Nat.leb_le 1 w)) by lia. cbn [bind].
    rewrite slice_to_bars, slice_from_bars by lia. cbn [bind]. f_equal. unfold wilder_sum_step. rewrite scan_bars.
    replace (a + (w - 1))%nat with (a + w - 1)%nat by lia. replace (n - (w - 1))%nat with (n + 1 - w)%nat by lia. reflexivity.
  Qed.
  Theorem twiggs_values h l c v n w : (0 < w)%nat -> (w <= n)%nat ->
    exists o, twiggs (series h n) (series l n) (series c n) (series v n) w = Ok o /\
    aligned o n w fnan (fun i =>
      let top k := fmax (h k) (c (k - 1)%nat) in
      let bot k := fmin (l k) (c (k - 1)%nat) in
      wsum_from w 1 (fun k => v k * ((#2 * c k - bot k - top k) / (top k - bot k))) i / wsum_from w 1 v i).
  Proof.
    intros Hw Hn. unfold twiggs. rewrite tail4_series by lia. cbn [bind]. rewrite !idx_series by lia. cbn [bind].
    rewrite (scan_inv_bars twiggs_step (fun i => c (i - 1)%nat) (fun k => v k * ((#2 * c k - fmin (l k) (c (k - 1)%nat) - fmax (h k) (c (k - 1)%nat))
             / (fmax (h k) (c (k - 1)%nat) - fmin (l k) (c (k - 1)%nat))))).
    - rewrite wilder_sum_bars by lia. cbn [bind]. rewrite slice_from_series by lia. cbn [bind]. rewrite wilder_sum_bars by lia. cbn [bind].
      eexists. split; [reflexivity|]. rewrite combine_bars, map_map, Nat.min_id. replace (1 + w - 1)%nat with w by lia.
      apply aligned_bars_ext; [lia|]. reflexivity.
    - reflexivity.
    - intros i Hi. replace (S i - 1)%nat with i by lia. reflexivity.
  Qed.
End Gen.

Local Open Scope R_scope.

(** ** Exact arithmetic *)

Lemma ratio_bounds {A} (x v : A -> R) l lo hi :
  (forall a, In a l -> 0 <= v a /\ lo <= x a <= hi) -> 0 < Rsum (map v l) ->
  lo <= Rsum (map (fun a => x a * v a) l) / Rsum (map v l) <= hi.
Proof.
  intros H P. assert (B : lo * Rsum (map v l) <= Rsum (map (fun a => x a * v a) l) <= hi * Rsum (map v l)).
  { rewrite <- !Rsum_map_scale. split; apply Rsum_le; intros a Ha; destruct (H a Ha); nra. }
  split; apply Rmult_le_reg_r with (1 := P); unfold Rdiv; rewrite Rmult_assoc, Rinv_l by lra; lra.
Qed.
Lemma x_total a s d (d' : nat -> R) m : (forall k, (a <= k < a + m)%nat -> d k = Fin (d' k)) ->
  total_from a (Fin s) d m = Fin (s + Rsum (map d' (seq a m))).
Proof.
  induction m as [|m IH]; intros H; cbn [total_from]; [cbn; f_equal; lra|].
  rewrite IH by (intros; apply H; lia). rewrite H by lia. rewrite x_add, seq_S, map_app, Rsum_app. cbn [map]. rewrite Rsum_cons, Rsum_nil. f_equal. ring.
Qed.
Lemma x_total0 a d (d' : nat -> R) m : (forall k, (a <= k < a + m)%nat -> d k = Fin (d' k)) ->
  total_from a (flit 0 1) d m = Fin (Rsum (map d' (seq a m))).
Proof. intros H. rewrite x_lit, (x_total _ _ _ d') by easy. f_equal. ring. Qed.
Lemma x_signum r : fsignum (Fin r) = Fin (if Rltb r 0 then -1 else 1).
Proof.
  unfold fsignum. cbn [fisnan fsignbit XR]. destruct (Rltb r 0); rewrite x_lit; reflexivity.
Qed.

(** [obv]: the running total of the volumes of the bars after the first, counted
    negative on a fall and positive otherwise: also when the close is unchanged. *)
Theorem obv_real c v n : exists o, obv (xseries c n) (xseries v n) = Ok o /\
  aligned o n 1 NaN (fun i => Fin (sum_bars (fun k => if Rltb (c k) (c (k - 1)%nat) then - v k else v k) 1 i)).
Proof.
  destruct (obv_values (fun k => Fin (c k)) (fun k => Fin (v k)) n) as (o & E & A). exists o. split; [exact E|].
  revert A. apply aligned_ext. intros i _. induction i as [|i IH]; [rewrite sum_bars_empty by lia; cbn [obv_total]; apply x_lit|].
  cbn [obv_total]. rewrite IH, x_sub, x_signum, x_mul, x_add. f_equal. destruct i as [|i].
  - rewrite sum_bars_empty, sum_bars_single by lia. cbn [minus]. rcase; lra.
  - rewrite (sum_bars_last _ 1 (S i)) by lia. replace (S (S i) - 1)%nat with (S i) by lia. rcase; lra.
Qed.
(** On-balance volume as documented would not move on an unchanged close. *)
Theorem obv_unchanged_refuted : exists c v o a b, obv (xseries c 3) (xseries v 3) = Ok o /\
  c 2%nat = c 1%nat /\ nth_error o 1 = Some (Fin a) /\ nth_error o 2 = Some (Fin b) /\ a <> b.
Proof.
  exists (fun _ => 1), (fun _ => 1). destruct (obv_real (fun _ => 1) (fun _ => 1) 3) as (o & E & (_ & _ & A)).
  exists o. do 2 eexists. split; [exact E|]. split; [easy|]. split; [apply A; lia|]. split; [apply A; lia|].
  rewrite (sum_bars_last _ 1 1) by lia. rcase; lra.
Qed.

(** [vwma]: the volume-weighted mean of the window. *)
Theorem vwma_real d v n w : (0 < w)%nat -> (forall i, (w - 1 <= i < n)%nat -> Rsum (last_bars w v i) <> 0) ->
  exists o, vwma (xseries d n) (xseries v n) w = Ok o /\
  aligned o n (w - 1) NaN (fun i => Fin (wmean (last_bars w v i) (last_bars w d i))).
Proof.
  intros Hw H. destruct (vwma_values (fun k => Fin (d k)) (fun k => Fin (v k)) n w Hw) as (o & E & A). exists o. split; [exact E|].
  revert A. apply aligned_ext. intros i Hi. rewrite x_last_bars, x_fsum, x_lit.
  rewrite (x_fold_add _ (fun k => d k * v k)) by (intros; apply x_mul). rewrite x_div by now apply H. f_equal. unfold wmean, wsum.
  rewrite combine_last_bars, map_last_bars. cbn [fst snd]. f_equal. rewrite Rplus_0_l. unfold last_bars. f_equal. apply map_ext. intros. ring.
Qed.
Theorem vwma_range d v w i : (0 < w <= i + 1)%nat -> (forall k, (k <= i)%nat -> 0 <= v k) -> 0 < Rsum (last_bars w v i) ->
  within (last_bars w d i) (wmean (last_bars w v i) (last_bars w d i)).
Proof.
  intros Hw Hv P. apply within_bounds.
  - intros E. apply (f_equal (@length R)) in E. rewrite length_last_bars in E. cbn in E. lia.
  - intros lo hi B. unfold wmean, wsum. rewrite combine_last_bars, map_last_bars. cbn [fst snd].
    unfold last_bars in *. rewrite (map_ext _ (fun k => d k * v k)) by (intros; ring). apply (ratio_bounds d v); [|easy].
    intros k Hk. split; [apply in_seq in Hk; apply Hv; lia|]. apply B. now apply in_map.
Qed.

(** [vwap]: the volume-weighted mean of the typical prices of the session. *)
Definition typical_price (h l c : nat -> R) (k : nat) : R := (h k + l k + c k) / 3.
Theorem vwap_real h l c v n resets : resets <> Some [] -> StronglySorted lt (unwrap_or resets [n]) ->
  (forall i, (i < n)%nat -> sum_bars v (session (unwrap_or resets [n]) i) i <> 0) ->
  exists o, vwap (xseries h n) (xseries l n) (xseries c n) (xseries v n) resets = Ok o /\
  aligned o n 0 NaN (fun i =>
    let s := session (unwrap_or resets [n]) i in
    Fin (sum_bars (fun k => typical_price h l c k * v k) s i / sum_bars v s i)).
Proof.
  intros H1 H2 H3. destruct (vwap_values (fun k => Fin (h k)) (fun k => Fin (l k)) (fun k => Fin (c k)) (fun k => Fin (v k)) n resets H1 H2) as (o & E & A).
  exists o. split; [exact E|]. revert A. apply aligned_ext. intros i Hi. cbv zeta.
  set (s := session _ i) in *. rewrite (x_total0 _ _ (fun k => typical_price h l c k * v k)).
  - rewrite (x_total0 _ _ v) by easy. rewrite x_div by (apply H3; lia). reflexivity.
  - intros k Hk. rewrite !x_add, x_lit, x_div, x_mul by lra. reflexivity.
Qed.
Theorem vwap_range h l c v s i lo hi : (s <= i)%nat -> (forall k, (s <= k <= i)%nat -> 0 <= v k /\ lo <= typical_price h l c k <= hi) ->
  0 < sum_bars v s i -> lo <= sum_bars (fun k => typical_price h l c k * v k) s i / sum_bars v s i <= hi.
Proof.
  intros Hs H P. unfold sum_bars in *. apply ratio_bounds; [|easy]. intros k Hk. apply in_seq in Hk. apply H. lia.
Qed.

(** [cmf]: sum of the close-location values weighted by volume. *)
Definition clv (h l c : nat -> R) (k : nat) : R := ((c k - l k) - (h k - c k)) / (h k - l k).
Theorem cmf_real h l c v n w : (0 < w)%nat -> (forall k, (k < n)%nat -> h k <> l k) ->
  (forall i, (w - 1 <= i < n)%nat -> Rsum (last_bars w v i) <> 0) ->
  exists o, cmf (xseries h n) (xseries l n) (xseries c n) (xseries v n) w = Ok o /\
  aligned o n (w - 1) NaN (fun i => Fin (wmean (last_bars w v i) (last_bars w (clv h l c) i))).
Proof.
  intros Hw Hhl H. destruct (cmf_values (fun k => Fin (h k)) (fun k => Fin (l k)) (fun k => Fin (c k)) (fun k => Fin (v k)) n w Hw) as (o & E & A).
  exists o. split; [exact E|]. revert A. apply aligned_ext. intros i Hi.
  rewrite (last_bars_ext w _ (fun k => Fin (v k * clv h l c k))).
  - rewrite !x_last_bars, !x_fsum, x_div by now apply H. f_equal. unfold wmean, wsum. rewrite combine_last_bars, map_last_bars. reflexivity.
  - intros k H1 H2. rewrite !x_sub, x_mul, x_div by (assert (h k <> l k) by (apply Hhl; lia); lra). f_equal. unfold clv, Rdiv. ring.
  - lia.
Qed.
Lemma clv_range h l c k : l k <= c k <= h k -> l k < h k -> -1 <= clv h l c k <= 1.
Proof. intros H1 H2. unfold clv. split; apply Rmult_le_reg_r with (h k - l k); try lra; unfold Rdiv; rewrite Rmult_assoc, Rinv_l by lra; lra. Qed.
Theorem cmf_range h l c v w i : (0 < w <= i + 1)%nat -> (forall k, (k <= i)%nat -> 0 <= v k /\ l k <= c k <= h k /\ l k < h k) ->
  0 < Rsum (last_bars w v i) -> -1 <= wmean (last_bars w v i) (last_bars w (clv h l c) i) <= 1.
Proof.
  intros Hw H P. unfold wmean, wsum. rewrite combine_last_bars, map_last_bars. cbn [fst snd]. unfold last_bars in *.
  rewrite (map_ext _ (fun k => clv h l c k * v k)) by (intros; ring). apply ratio_bounds; [|easy].
  intros k Hk. apply in_seq in Hk. destruct (H k ltac:(lia)) as (H1 & H2 & H3). split; [easy|]. now apply clv_range.
Qed.

(** [mfi]: 100 times the share of the up-flow in the total flow; NaN when there
    is no flow at all.  (Prices and volumes not negative.) *)
Definition up_flow (tp v : nat -> R) (k : nat) : R := if Rltb (tp (k - 1)%nat) (tp k) then tp k * v k else 0.
Definition down_flow (tp v : nat -> R) (k : nat) : R := if Rltb (tp k) (tp (k - 1)%nat) then tp k * v k else 0.
Theorem mfi_real h l c v n w : (0 < w)%nat -> (0 < n)%nat ->
  (forall k, (k < n)%nat -> 0 <= h k /\ 0 <= l k /\ 0 <= c k /\ 0 <= v k) ->
  exists o, mfi (xseries h n) (xseries l n) (xseries c n) (xseries v n) w = Ok o /\
  aligned o n w NaN (fun i =>
    let up := Rsum (last_bars w (up_flow (typical_price h l c) v) i) in
    let down := Rsum (last_bars w (down_flow (typical_price h l c) v) i) in
    if Req (up + down) 0 then NaN else Fin (100 * (up / (up + down)))).
Proof.
  intros Hw Hn H. destruct (mfi_values (fun k => Fin (h k)) (fun k => Fin (l k)) (fun k => Fin (c k)) (fun k => Fin (v k)) n w Hw Hn) as (o & E & A).
  exists o. split; [exact E|]. revert A. apply aligned_ext. intros i Hi. cbv zeta.
  assert (T : forall k, typ (fun k => Fin (h k)) (fun k => Fin (l k)) (fun k => Fin (c k)) k = Fin (typical_price h l c k)).
  { intros k. unfold typ. rewrite !x_add, x_lit, x_div by lra. reflexivity. }
  set (tp := typical_price h l c) in *.
  rewrite (last_bars_ext w _ (fun k => Fin (up_flow tp v k))) by (try lia; intros k _ _; rewrite !T; unfold fgtb; rewrite x_ltb, x_mul, x_lit; unfold up_flow; now destruct (Rltb _ _)).
  rewrite (last_bars_ext w (fun k => if fltb _ _ then _ else _) (fun k => Fin (down_flow tp v k)))
    by (try lia; intros k _ _; rewrite !T; rewrite x_ltb, x_mul, x_lit; unfold down_flow; now destruct (Rltb _ _)).
  rewrite !x_last_bars, !x_fsum, !x_lit.
  assert (P : forall f, (forall k, (k < n)%nat -> 0 <= f k) -> 0 <= Rsum (last_bars w f i)).
  { intros f Hf. apply Rsum_nonneg. intros x Hx. apply In_last_bars in Hx as (k & H1 & H2 & ->); [|lia]. apply Hf. lia. }
  assert (Tp : forall k, (k < n)%nat -> 0 <= tp k * v k).
  { intros k Hk. destruct (H k Hk) as (? & ? & ? & ?). apply Rmult_le_pos; [|easy]. unfold tp, typical_price. lra. }
  assert (U0 := P (up_flow tp v) ltac:(intros k Hk; unfold up_flow; destruct (Rltb _ _); [now apply Tp|lra])).
  assert (D0 := P (down_flow tp v) ltac:(intros k Hk; unfold down_flow; destruct (Rltb _ _); [now apply Tp|lra])).
  set (U := Rsum (last_bars w (up_flow tp v) i)) in *. set (D := Rsum (last_bars w (down_flow tp v) i)) in *.
  destruct (Req (U + D) 0) eqn:Z.
  - apply Req_true in Z. replace U with 0 by lra. replace D with 0 by lra. rewrite x_quot, quot_0_0.
    now rewrite x_add_nan_r, x_div_nan_r, x_sub_nan_r.
  - apply Req_false in Z. destruct (Req_dec D 0) as [->|ND].
    + assert (U <> 0) by lra. cbn [fdiv XR xdiv]. unfold Req at 1. destruct (Req_EM_T 0 0); [|easy]. unfold Req. destruct (Req_EM_T U 0); [easy|].
      cbn. rewrite Rminus_0_r, Rplus_0_r. f_equal. field. easy.
    + rewrite x_div by easy. rewrite x_add. assert (0 <= U / D) by (apply Rdiv_nonneg; lra). rewrite x_div by lra. rewrite x_sub. f_equal. field. lra.
Qed.
Theorem mfi_range up down : 0 <= up -> 0 <= down -> up + down <> 0 -> 0 <= 100 * (up / (up + down)) <= 100.
Proof.
  intros. assert (0 <= up / (up + down)) by (apply Rdiv_nonneg; lra).
  assert (up / (up + down) <= 1). { apply Rmult_le_reg_r with (up + down); [lra|]. unfold Rdiv. rewrite Rmult_assoc, Rinv_l by lra. lra. } lra.
Qed.

(** [twiggs] *)
Definition wilder_total (w k : nat) (f : nat -> R) (i : nat) : R :=
  fold_left (fun s x => s * (INR w - 1) / INR w + x) (map f (seq (k + w - 1) (i + 1 - (k + w - 1)))) (Rsum (map f (seq k (w - 1)))).
Lemma x_wsum_from w k (f : nat -> xr) (g : nat -> R) i : (0 < w)%nat -> (forall j, (k <= j)%nat -> f j = Fin (g j)) ->
  wsum_from w k f i = Fin (wilder_total w k g i).
Proof.
  intros Hw H. unfold wsum_from, wilder_total. rewrite !x_nat, minus_INR by lia. cbn [INR]. rewrite (map_ext_in f (fun j => Fin (g j)) (seq k _)) by (intros j Hj; apply in_seq in Hj; apply H; lia).
  rewrite <- (map_map g Fin), x_fsum. generalize (Rsum (map g (seq k (w - 1)))) as s.
  assert (Hs : forall j, In j (seq (k + w - 1) (i + 1 - (k + w - 1))) -> f j = Fin (g j)) by (intros j Hj; apply in_seq in Hj; apply H; lia).
  revert Hs. generalize (seq (k + w - 1) (i + 1 - (k + w - 1))) as l. induction l as [|j l IH]; intros Hl s; [easy|]. cbn [map fold_left].
  rewrite Hl by now left. rewrite x_mul, x_div, x_add by (apply INR_neq0; lia). apply IH. intros; apply Hl; now right.
Qed.
Lemma wilder_total_bound w k x v i lo hi : (0 < w)%nat -> (forall j, (k <= j)%nat -> 0 <= v j /\ lo <= x j <= hi) ->
  lo * wilder_total w k v i <= wilder_total w k (fun j => x j * v j) i <= hi * wilder_total w k v i.
Proof.
  intros Hw H. unfold wilder_total.
  assert (S0 : lo * Rsum (map v (seq k (w - 1))) <= Rsum (map (fun j => x j * v j) (seq k (w - 1))) <= hi * Rsum (map v (seq k (w - 1)))).
  { rewrite <- !Rsum_map_scale. split; apply Rsum_le; intros j Hj; apply in_seq in Hj; destruct (H j ltac:(lia)); nra. }
  revert S0. generalize (Rsum (map v (seq k (w - 1)))) as s. generalize (Rsum (map (fun j => x j * v j) (seq k (w - 1)))) as t.
  assert (Hl : forall j, In j (seq (k + w - 1) (i + 1 - (k + w - 1))) -> 0 <= v j /\ lo <= x j <= hi) by (intros j Hj; apply in_seq in Hj; apply H; lia).
  revert Hl. generalize (seq (k + w - 1) (i + 1 - (k + w - 1))) as l. induction l as [|j l IH]; intros Hl t s B; [exact B|]. cbn [map fold_left]. apply IH; [intros; apply Hl; now right|].
  destruct (Hl j (or_introl eq_refl)) as [V X]. pose proof (INR_pos w Hw). assert (1 <= INR w) by (change 1 with (INR 1); apply le_INR; lia).
  set (q := (INR w - 1) / INR w). assert (0 <= q) by (apply Rdiv_nonneg; lra).
  replace (t * (INR w - 1) / INR w) with (t * q) by (unfold q, Rdiv; ring). replace (s * (INR w - 1) / INR w) with (s * q) by (unfold q, Rdiv; ring).
  split; nra.
Qed.
Definition twiggs_location (h l c : nat -> R) (k : nat) : R :=
  let top := Rmax (h k) (c (k - 1)%nat) in
  let bot := Rmin (l k) (c (k - 1)%nat) in
  (2 * c k - bot - top) / (top - bot).
Theorem twiggs_real h l c v n w : (0 < w <= n)%nat ->
  (forall k, (1 <= k)%nat -> Rmin (l k) (c (k - 1)%nat) < Rmax (h k) (c (k - 1)%nat)) ->
  (forall i, (w <= i < n)%nat -> wilder_total w 1 v i <> 0) ->
  exists o, twiggs (xseries h n) (xseries l n) (xseries c n) (xseries v n) w = Ok o /\
  aligned o n w NaN (fun i => Fin (wilder_total w 1 (fun k => twiggs_location h l c k * v k) i / wilder_total w 1 v i)).
Proof.
  intros Hw H1 H2. destruct (twiggs_values (fun k => Fin (h k)) (fun k => Fin (l k)) (fun k => Fin (c k)) (fun k => Fin (v k)) n w) as (o & E & A); try lia.
  exists o. split; [exact E|]. revert A. apply aligned_ext. intros i Hi. cbv zeta.
  rewrite (x_wsum_from w 1 _ (fun k => twiggs_location h l c k * v k)); [|lia|].
  - rewrite (x_wsum_from w 1 _ v) by (easy || lia). rewrite x_div by now apply H2. reflexivity.
  - intros k Hk. specialize (H1 k Hk). rewrite x_min, x_max, x_lit, x_mul, !x_sub, x_div, x_mul by lra. f_equal. unfold twiggs_location. ring.
Qed.
Theorem twiggs_range h l c v w i : (0 < w)%nat -> (forall k, (1 <= k)%nat -> 0 <= v k /\ l k <= c k <= h k /\ Rmin (l k) (c (k - 1)%nat) < Rmax (h k) (c (k - 1)%nat)) ->
  0 < wilder_total w 1 v i ->
  -1 <= wilder_total w 1 (fun k => twiggs_location h l c k * v k) i / wilder_total w 1 v i <= 1.
Proof.
  intros Hw H P. destruct (wilder_total_bound w 1 (twiggs_location h l c) v i (-1) 1 Hw) as [B1 B2].
  - intros k Hk. destruct (H k Hk) as (V & C & T). split; [easy|]. unfold twiggs_location. cbv zeta.
    pose proof (Rmin_l (l k) (c (k - 1)%nat)). pose proof (Rmax_l (h k) (c (k - 1)%nat)).
    split; (apply Rmult_le_reg_r with (Rmax (h k) (c (k - 1)%nat) - Rmin (l k) (c (k - 1)%nat)); [lra|]); unfold Rdiv; rewrite Rmult_assoc, Rinv_l by lra; lra.
  - split; apply Rmult_le_reg_r with (1 := P); unfold Rdiv; rewrite Rmult_assoc, Rinv_l by lra; lra.
Qed.

(** [ad], [vpt], [tvi]: running sums. *)
Theorem ad_real h l c v n alt : unwrap_or alt false = false -> (forall k, (k < n)%nat -> h k <> l k) ->
  exists o, ad (xseries h n) (xseries l n) (xseries c n) (xseries v n) alt = Ok o /\
  aligned o n 0 NaN (fun i => Fin (sum_bars (fun k => clv h l c k * v k) 0 i)).
Proof.
  intros E0 H. destruct (ad_values (fun k => Fin (h k)) (fun k => Fin (l k)) (fun k => Fin (c k)) (fun k => Fin (v k)) n alt E0) as (o & E & A).
  exists o. split; [exact E|]. revert A. apply aligned_ext. intros i Hi. rewrite (x_total0 _ _ (fun k => clv h l c k * v k)).
  - unfold sum_bars. do 4 f_equal. lia.
  - intros k Hk. specialize (H k ltac:(lia)). rewrite !x_sub, x_div, x_mul by lra. reflexivity.
Qed.
(** One bar whose high equals its low turns the rest of the line into NaN. *)
Lemma x_total_nan a s d m k : (a <= k < a + m)%nat -> d k = NaN -> total_from a s d m = NaN.
Proof.
  induction m as [|m IH]; intros Hk E; [lia|]. cbn [total_from]. destruct (Nat.eq_dec k (a + m)) as [<-|].
  - rewrite E. apply x_add_nan_r.
  - rewrite IH by (easy || lia). apply x_add_nan_l.
Qed.
Theorem ad_flat_bar h l c v n alt k : unwrap_or alt false = false -> (k < n)%nat -> h k = l k -> c k = l k ->
  exists o, ad (xseries h n) (xseries l n) (xseries c n) (xseries v n) alt = Ok o /\
  forall i, (k <= i < n)%nat -> nth_error o i = Some NaN.
Proof.
  intros E0 Hk H1 H2. destruct (ad_values (fun k => Fin (h k)) (fun k => Fin (l k)) (fun k => Fin (c k)) (fun k => Fin (v k)) n alt E0) as (o & E & (_ & _ & A)).
  exists o. split; [exact E|]. intros i Hi. rewrite A by lia. f_equal. apply (x_total_nan _ _ _ _ k); [lia|]. cbn beta.
  rewrite !x_sub, H1, H2. replace (l k - l k - (l k - l k)) with 0 by lra. replace (l k - l k) with 0 by lra. now rewrite x_quot, quot_0_0.
Qed.
Theorem ad_alt_real h l c v n : (0 < n)%nat ->
  exists o, ad (xseries h n) (xseries l n) (xseries c n) (xseries v n) (Some true) = Ok o /\
  aligned o n 1 NaN (fun i => Fin (sum_bars (fun k =>
    (if Rltb (c (k - 1)%nat) (c k) then c k - Rmin (l k) (c (k - 1)%nat) else c k - Rmax (h k) (c (k - 1)%nat)) * v k) 1 i)).
Proof.
  intros Hn. destruct (ad_alt_values (fun k => Fin (h k)) (fun k => Fin (l k)) (fun k => Fin (c k)) (fun k => Fin (v k)) n Hn) as (o & E & A).
  exists o. split; [exact E|]. revert A. apply aligned_ext. intros i Hi. match goal with |- _ = Fin (sum_bars ?d _ _) => rewrite (x_total0 _ _ d) end.
  - unfold sum_bars. do 4 f_equal. lia.
  - intros k _. unfold fgtb. rewrite x_ltb, x_min, x_max, !x_sub. destruct (Rltb _ _); now rewrite x_mul.
Qed.
Theorem vpt_real c v n : (0 < n)%nat -> (forall k, (k < n)%nat -> c k <> 0) ->
  exists o, vpt (xseries c n) (xseries v n) = Ok o /\
  aligned o n 1 NaN (fun i => Fin (sum_bars (fun k => v k * ((c k - c (k - 1)%nat) / c (k - 1)%nat)) 1 i)).
Proof.
  intros Hn H. destruct (vpt_values (fun k => Fin (c k)) (fun k => Fin (v k)) n Hn) as (o & E & A).
  exists o. split; [exact E|]. revert A. apply aligned_ext. intros i Hi. match goal with |- _ = Fin (sum_bars ?d _ _) => rewrite (x_total0 _ _ d) end.
  - unfold sum_bars. do 4 f_equal. lia.
  - intros k Hk. rewrite x_sub, x_mul, x_div by (apply H; lia). f_equal. unfold Rdiv. ring.
Qed.
(** The bar whose move decided the direction: the latest bar at or before [i]
    that moved by more than the tick. *)
Theorem tvi_real tick c v n : (0 < n)%nat -> exists o, tvi (xseries c n) (xseries v n) (Fin tick) = Ok o /\
  aligned o n 1 NaN (fun i => Fin (sum_bars (fun k => if tvi_dir (Fin tick) (fun k => Fin (c k)) k then v k else - v k) 1 i)).
Proof.
  intros Hn. destruct (tvi_values (Fin tick) (fun k => Fin (c k)) (fun k => Fin (v k)) n Hn) as (o & E & A).
  exists o. split; [exact E|]. revert A. apply aligned_ext. intros i Hi. match goal with |- _ = Fin (sum_bars ?d _ _) => rewrite (x_total0 _ _ d) end.
  - unfold sum_bars. do 4 f_equal. lia.
  - intros k Hk. destruct (tvi_dir _ _ _); rewrite x_lit, x_mul; f_equal; lra.
Qed.
Theorem tvi_direction tick c i b : 0 <= tick ->
  (tvi_dir (Fin tick) (fun k => Fin (c k)) i = b <->
   (exists k, (0 < k <= i)%nat /\ (if b then c (k - 1)%nat + tick < c k else c k + tick < c (k - 1)%nat) /\
      forall j, (k < j <= i)%nat -> Rabs (c j - c (j - 1)%nat) <= tick) \/
   (b = true /\ forall j, (0 < j <= i)%nat -> Rabs (c j - c (j - 1)%nat) <= tick)).
Proof.
  intros Ht. revert b. induction i as [|i IH]; intros b; cbn [tvi_dir].
  - split.
    + intros <-. right. split; [easy|]. lia.
    + intros [(k & Hk & _)|[-> _]]; [lia|easy].
  - unfold fgtb. rewrite !x_sub, !x_ltb.
    assert (D : c i + tick < c (S i) \/ c (S i) + tick < c i \/ Rabs (c (S i) - c i) <= tick).
    { unfold Rabs. destruct (Rcase_abs _); lra. }
    assert (Split : forall P : nat -> Prop, (forall j, (0 < j <= S i)%nat -> P j) <-> ((forall j, (0 < j <= i)%nat -> P j) /\ P (S i))).
    { intros P. split; [intros Q; split; [intros; apply Q; lia|apply Q; lia]|]. intros [Q1 Q2] j Hj. destruct (Nat.eq_dec j (S i)) as [->|]; [easy|apply Q1; lia]. }
    assert (Here : forall k, (0 < k <= S i)%nat -> (k = S i \/ (0 < k <= i)%nat)) by lia.
    destruct D as [D|[D|D]].
    + rewrite (proj2 (Rltb_true _ _)) by lra. split.
      * intros <-. left. exists (S i). split; [lia|]. split; [replace (S i - 1)%nat with i by lia; lra|lia].
      * assert (N : ~ Rabs (c (S i) - c i) <= tick) by (unfold Rabs; destruct (Rcase_abs _); lra).
        intros [(k & Hk & B & R)|[-> R]]; [|easy]. destruct (Here k Hk) as [->|Hk'].
        -- replace (S i - 1)%nat with i in B by lia. destruct b; [easy|lra].
        -- exfalso. apply N. specialize (R (S i) ltac:(lia)). now replace (S i - 1)%nat with i in R by lia.
    + rewrite (proj2 (Rltb_false _ _)) by lra. rewrite (proj2 (Rltb_true _ _)) by lra. split.
      * intros <-. left. exists (S i). split; [lia|]. split; [replace (S i - 1)%nat with i by lia; lra|lia].
      * assert (N : ~ Rabs (c (S i) - c i) <= tick) by (unfold Rabs; destruct (Rcase_abs _); lra).
        intros [(k & Hk & B & R)|[-> R]].
        -- destruct (Here k Hk) as [->|Hk'].
           ++ replace (S i - 1)%nat with i in B by lia. destruct b; [lra|easy].
           ++ exfalso. apply N. specialize (R (S i) ltac:(lia)). now replace (S i - 1)%nat with i in R by lia.
        -- exfalso. apply N. specialize (R (S i) ltac:(lia)). now replace (S i - 1)%nat with i in R by lia.
    + assert (D1 : ~ c i + tick < c (S i) /\ ~ c (S i) + tick < c i) by (revert D; unfold Rabs; destruct (Rcase_abs _); lra).
      rewrite !(proj2 (Rltb_false _ _)) by lra. rewrite IH. split.
      * intros [(k & Hk & B & R)|[-> R]].
        -- left. exists k. split; [lia|]. split; [easy|]. intros j Hj. destruct (Nat.eq_dec j (S i)) as [->|]; [now replace (S i - 1)%nat with i by lia|apply R; lia].
        -- right. split; [easy|]. apply Split. split; [easy|]. now replace (S i - 1)%nat with i by lia.
      * intros [(k & Hk & B & R)|[-> R]].
        -- destruct (Here k Hk) as [->|Hk'].
           ++ replace (S i - 1)%nat with i in B by lia. destruct b; lra.
           ++ left. exists k. split; [easy|]. split; [easy|]. intros j Hj. apply R. lia.
        -- right. split; [easy|]. intros j Hj. apply R. lia.
Qed.

(** [pvi], [nvi]: compounding of the changes of the bars with rising (falling) volume. *)
Fixpoint compound (sel : nat -> bool) (c : nat -> R) (i : nat) : R :=
  match i with
  | O => 100
  | S j => compound sel c j * (if sel (S j) then c (S j) / c j else 1)
  end.
Theorem pvi_real c v n : (forall k, (k < n)%nat -> c k <> 0) ->
  aligned (pvi (xseries c n) (xseries v n)) n 1 NaN (fun i => Fin (compound (fun k => Rltb (v (k - 1)%nat) (v k)) c i)).
Proof.
  intros H. generalize (pvi_values (fun k => Fin (c k)) (fun k => Fin (v k)) n). apply aligned_ext. intros i [_ Hi].
  induction i as [|i IH]; [apply x_lit|]. cbn [vol_index compound]. rewrite IH by lia. unfold fgtb. rewrite x_ltb, x_div, x_mul by (apply H; lia).
  replace (S i - 1)%nat with i by lia. destruct (Rltb _ _); f_equal; ring.
Qed.
Theorem nvi_real c v n : (forall k, (k < n)%nat -> c k <> 0) ->
  aligned (nvi (xseries c n) (xseries v n)) n 1 NaN (fun i => Fin (compound (fun k => Rltb (v k) (v (k - 1)%nat)) c i)).
Proof.
  intros H. generalize (nvi_values (fun k => Fin (c k)) (fun k => Fin (v k)) n). apply aligned_ext. intros i [_ Hi].
  induction i as [|i IH]; [apply x_lit|]. cbn [vol_index compound]. rewrite IH by lia. rewrite x_ltb, x_div, x_mul by (apply H; lia).
  replace (S i - 1)%nat with i by lia. destruct (Rltb _ _); f_equal; ring.
Qed.

(** [elder_force]: EWMA of (close change) * volume. *)
Theorem elder_force_real c v n w : (0 < w < n)%nat -> exists o, elder_force (xseries c n) (xseries v n) w = Ok o /\
  aligned o n w NaN (fun i => Fin (ewma_from w 1 (fun k => (c k - c (k - 1)%nat) * v k) i)).
Proof.
  intros Hw. unfold elder_force. unfold xseries. rewrite steps3_series by lia. cbn [bind]. rewrite map_map.
  destruct (ewma_from_at (fun k => (c k - c (k - 1)%nat) * v k) w 1 (n - 1)) as (o & E & A); [lia|].
  erewrite map_ext; [rewrite E|intros k; now rewrite x_sub, x_mul]. cbn [bind]. eexists. split; [reflexivity|].
  replace w with (S (w - 1)) at 1 by lia. apply aligned_shift1; [lia|exact A].
Qed.
(** [ease]: SMA of the move of the midpoint per unit of (scaled) volume over the range. *)
Theorem ease_real h l v n w : (0 < w)%nat -> (0 < n)%nat -> (forall k, (k < n)%nat -> v k <> 0 /\ h k <> l k) ->
  exists o, ease (xseries h n) (xseries l n) (xseries v n) w = Ok o /\
  aligned o n w NaN (fun i => Fin (mean (last_bars w (fun k =>
    ((h k + l k) / 2 - (h (k - 1)%nat + l (k - 1)%nat) / 2) / (v k / 100000000 / (h k - l k))) i))).
Proof.
  intros Hw Hn H. unfold ease. unfold xseries at 4. rewrite length_series.
  set (f := fun k => ((h k + l k) / 2 - (h (k - 1)%nat + l (k - 1)%nat) / 2) / (v k / 100000000 / (h k - l k))).
  replace (rmap _ _) with (Ok (map (fun k => Fin (f k)) (seq 1 (n - 1)))).
  - cbn [bind]. destruct (sma_from f w 1 (n - 1) Hw) as (o & E & A). rewrite E. cbn [bind]. eexists. split; [reflexivity|].
    replace w with (S (w - 1)) at 1 by lia. apply aligned_shift1; [lia|exact A].
  - symmetry. apply rmap_Ok_map. intros k Hk. apply in_seq in Hk. unfold ease_bar, xseries. rewrite !idx_series by lia. cbn [bind].
    rewrite !x_lit, x_add, !x_sub, x_div by lra. destruct (H k ltac:(lia)). rewrite x_div by lra. rewrite x_div by lra. rewrite x_div.
    + do 2 f_equal. unfold f. f_equal. lra.
    + unfold Rdiv. repeat apply Rmult_integral_contrapositive_currified; try easy; apply Rinv_neq_0_compat; lra.
Qed.
Theorem bw_mfi_real h l v n : (forall k, (k < n)%nat -> v k <> 0) ->
  bw_mfi (xseries h n) (xseries l n) (xseries v n) = xseries (fun k => (h k - l k) / v k * 1000000) n.
Proof.
  intros H. unfold xseries. rewrite bw_mfi_values. unfold series. apply map_ext_in. intros k Hk. apply in_seq in Hk.
  rewrite x_sub, x_div, x_lit, x_mul by (apply H; lia). reflexivity.
Qed.

(** [kvo] with the default (alternate) force: volume signed by the move of
    high + low + close (an unchanged sum counts as a rise). *)
Definition signed_volume (h l c v : nat -> R) (k : nat) : R :=
  if Rltb (h k + l k + c k) (h (k - 1)%nat + l (k - 1)%nat + c (k - 1)%nat) then - v k else v k.
Lemma vforce_alt_real h l c v n : (0 < n)%nat -> vforce_alt (xseries h n) (xseries l n) (xseries c n) (xseries v n) =
  Ok (map (fun k => Fin (signed_volume h l c v k)) (seq 1 (n - 1))).
Proof.
  intros Hn. unfold vforce_alt, xseries. rewrite tail4_series by easy. cbn [bind]. rewrite !idx_series by easy. cbn [bind]. f_equal.
  apply (scan_inv_bars vforce_alt_step (fun i => (Fin (h (i - 1)%nat), Fin (l (i - 1)%nat), Fin (c (i - 1)%nat)))); [easy|].
  intros i Hi. replace (S i - 1)%nat with i by lia. unfold vforce_alt_step. rewrite !x_add, x_sub, x_signum, x_mul. do 2 f_equal.
  unfold signed_volume. rcase; lra.
Qed.
Lemma x_sub_nan_pair : (forall x, (fun '(a, b) => fsub a b) (NaN, x) = NaN) /\ (forall x, (fun '(a, b) => fsub a b) (x, NaN) = NaN).
Proof. split; intros x; now destruct x. Qed.
Lemma kvo_tail (f : nat -> R) n short long : (0 < short < n)%nat -> (0 < long < n)%nat ->
  exists o, (let* a := ewma (map (fun k => Fin (f k)) (seq 1 (n - 1))) short in
             let* b := ewma (map (fun k => Fin (f k)) (seq 1 (n - 1))) long in
             Ok (NaN :: map (fun '(x, y) => fsub x y) (combine a b))) = Ok o /\
  aligned o n (Nat.max short long) NaN (fun i => Fin (ewma_from short 1 f i - ewma_from long 1 f i)).
Proof.
  intros H1 H2. destruct (ewma_from_at f short 1 (n - 1)) as (a & -> & A); [lia|]. destruct (ewma_from_at f long 1 (n - 1)) as (b & -> & B); [lia|].
  cbn [bind]. eexists. split; [reflexivity|].
  replace (Nat.max short long) with (S (Nat.max (short - 1) (long - 1))) by lia. apply aligned_shift1; [lia|].
  eapply aligned_ext; [|apply (aligned_map2 _ _ _ _ _ _ _ _ A B); try lia; apply x_sub_nan_pair]. reflexivity.
Qed.
Theorem kvo_real h l c v n short long alt : unwrap_or alt true = true -> (0 < short < n)%nat -> (0 < long < n)%nat ->
  exists o, kvo (xseries h n) (xseries l n) (xseries c n) (xseries v n) short long alt = Ok o /\
  aligned o n (Nat.max short long) NaN (fun i =>
    Fin (ewma_from short 1 (signed_volume h l c v) i - ewma_from long 1 (signed_volume h l c v) i)).
Proof.
  intros E H1 H2. unfold kvo. rewrite E, vforce_alt_real by lia. cbn [bind]. now apply kvo_tail.
Qed.
(** The original volume force: the trend of a bar, the range accumulated while
    the trend lasts, and the force. *)
Definition kvo_up (h l c : nat -> R) (k : nat) : bool :=
  negb (Rltb (h k + l k + c k) (h (k - 1)%nat + l (k - 1)%nat + c (k - 1)%nat)).
Fixpoint kvo_cum (h l c : nat -> R) (k : nat) : R :=
  match k with
  | O => 0
  | S j => match j with
           | O => h k - l k
           | S _ => (if Bool.eqb (kvo_up h l c k) (kvo_up h l c j) then kvo_cum h l c j else h j - l j) + (h k - l k)
           end
  end.
Definition volume_force (h l c v : nat -> R) (k : nat) : R :=
  v k * ((h k - l k) / kvo_cum h l c k - 1) * (if kvo_up h l c k then 1 else -1) * 200.
Lemma kvo_cum_pos h l c k : (forall j, (j <= k)%nat -> l j < h j) -> (0 < k)%nat -> 0 < kvo_cum h l c k.
Proof.
  induction k as [|k IH]; intros H Hk; [lia|]. assert (l (S k) < h (S k)) by (apply H; lia). destruct k as [|k]; [cbn; lra|].
  change (kvo_cum h l c (S (S k))) with ((if Bool.eqb (kvo_up h l c (S (S k))) (kvo_up h l c (S k)) then kvo_cum h l c (S k) else h (S k) - l (S k)) + (h (S (S k)) - l (S (S k)))).
  assert (l (S k) < h (S k)) by (apply H; lia). assert (0 < kvo_cum h l c (S k)) by (apply IH; [intros; apply H; lia|lia]). destruct (Bool.eqb _ _); lra.
Qed.
Lemma vforce_real h l c v n : (0 < n)%nat -> (forall k, (k < n)%nat -> l k < h k) ->
  vforce (xseries h n) (xseries l n) (xseries c n) (xseries v n) = Ok (map (fun k => Fin (volume_force h l c v k)) (seq 1 (n - 1))).
Proof.
  intros Hn H. unfold vforce, xseries. rewrite tail4_series by easy. cbn [bind]. rewrite !idx_series by easy. cbn [bind]. f_equal.
  apply (scan_inv_bars vforce_step (fun i => let j := (i - 1)%nat in (Fin (h j), Fin (l j), Fin (c j),
     Fin (match j with O => 0 | _ => if kvo_up h l c j then 1 else -1 end), Fin (kvo_cum h l c j), Fin (match j with O => 0 | _ => h j - l j end)))).
  - rewrite !x_lit. reflexivity.
  - intros i Hi. cbv zeta. destruct i as [|j]; [lia|]. replace (S (S j) - 1)%nat with (S j) by lia. replace (S j - 1)%nat with j by lia.
    unfold vforce_step. rewrite !x_add, x_sub, x_signum, !x_lit.
    assert (T : (if Rltb (h (S j) + l (S j) + c (S j) - (h j + l j + c j)) 0 then -1 else 1) = (if kvo_up h l c (S j) then 1 else -1)).
    { unfold kvo_up. replace (S j - 1)%nat with j by lia. rcase; cbn; try lra; reflexivity. }
    rewrite T, x_eqb, !x_sub, !x_add.
    assert (C : (if Req (if kvo_up h l c (S j) then 1 else -1) match j with O => 0 | S _ => if kvo_up h l c j then 1 else -1 end
                 then Fin (kvo_cum h l c j + (h (S j) - l (S j))) else Fin (match j with O => 0 | S _ => h j - l j end + (h (S j) - l (S j)))) = Fin (kvo_cum h l c (S j))).
    { destruct j as [|j].
      - cbn [kvo_cum]. destruct (kvo_up h l c 1); unfold Req; destruct (Req_EM_T _ _); f_equal; lra.
      - change (kvo_cum h l c (S (S j))) with ((if Bool.eqb (kvo_up h l c (S (S j))) (kvo_up h l c (S j)) then kvo_cum h l c (S j) else h (S j) - l (S j)) + (h (S (S j)) - l (S (S j)))).
        destruct (kvo_up h l c (S (S j))), (kvo_up h l c (S j)); cbn [Bool.eqb]; unfold Req; destruct (Req_EM_T _ _); try lra; reflexivity. }
    rewrite C. assert (P : 0 < kvo_cum h l c (S j)) by (apply kvo_cum_pos; [intros; apply H; lia|lia]).
    rewrite x_div, x_sub, !x_mul by lra. reflexivity.
Qed.
Theorem kvo_force_real h l c v n short long : (0 < short < n)%nat -> (0 < long < n)%nat -> (forall k, (k < n)%nat -> l k < h k) ->
  exists o, kvo (xseries h n) (xseries l n) (xseries c n) (xseries v n) short long (Some false) = Ok o /\
  aligned o n (Nat.max short long) NaN (fun i =>
    Fin (ewma_from short 1 (volume_force h l c v) i - ewma_from long 1 (volume_force h l c v) i)).
Proof.
  intros H1 H2 H. unfold kvo. cbn [unwrap_or]. rewrite vforce_real by (easy || lia). cbn [bind]. now apply kvo_tail.
Qed.
