(** * Model of /repo/src/statistic/regression.rs *)

From Verif Require Export Num.

Section Regression.
  Context {F : Type} {O : FOps F}.
  Local Open Scope F_scope.

  (** regression.rs:31-37 [mse]: [data.iter().enumerate().zip(estimate)] *)
  Definition obs_est (data estimate : list F) : list (nat * F * F) :=
    combine (enumerate data) estimate.

  (** regression.rs:30-38 [mse] *)
  Definition mse (data estimate : list F) : list F :=
    scan (fun state '(cnt, observe, est) =>
            let state' := state + powi2 (observe - est) in
            (state', state' / fofnat (cnt + 1)))
         #0 (obs_est data estimate).

  (** regression.rs:59-70 [rmse] *)
  Definition rmse (data estimate : list F) : list F :=
    scan (fun state '(cnt, observe, est) =>
            let state' := state + powi2 (observe - est) in
            (state', fsqrt (state' / fofnat (cnt + 1))))
         #0 (obs_est data estimate).

  (** regression.rs:92-100 [mae] *)
  Definition mae (data estimate : list F) : list F :=
    scan (fun state '(cnt, observe, est) =>
            let state' := state + fabs (observe - est) in
            (state', state' / fofnat (cnt + 1)))
         #0 (obs_est data estimate).

  (** regression.rs:121-134 [mape] *)
  Definition mape (data estimate : list F) : list F :=
    scan (fun state '(cnt, observe, est) =>
            let state' := state + fabs ((observe - est) / observe) in
            (state', #100 * state' / fofnat (cnt + 1)))
         #0 (obs_est data estimate).

  (** regression.rs:156-169 [smape] *)
  Definition smape (data estimate : list F) : list F :=
    scan (fun state '(cnt, observe, est) =>
            let state' :=
              state + fmax (fabs (observe - est) / ((fabs observe + fabs est) / #2)) #0 in
            (state', #100 * state' / fofnat (cnt + 1)))
         #0 (obs_est data estimate).

  (** regression.rs:191-201 [mda]; panics when either series is empty. *)
  Definition mda (data estimate : list F) : result (list F) :=
    let* d := slice_from data 1 in
    let* e := slice_from estimate 1 in
    let* d0 := idx data 0 in
    Ok (fnan ::
        scan (fun '(hits, prev) '(cnt, observe, est) =>
                let dir := fbool (fsignum (observe - prev) =? fsignum (est - prev)) in
                ((hits + dir, observe), (hits + dir) / fofnat (cnt + 1)))
             (#0, d0) (obs_est d e)).

  (** [iter.zip(1..)] where the counter is an [i32] (no other constraint fixes
      its type): the range steps past [i32::MAX] and panics when it has to
      produce item number [2^31 - 1]. *)
  Definition zip_i32 {A} (l : list A) : result (list (A * nat)) :=
    if (N.of_nat (length l) <? 2 ^ 31 - 1)%N
    then Ok (combine l (seq 1 (length l))) else Panic.

  (** regression.rs:229-241 [mase].  [mae_est.skip(1)] is polled before the
      naive series, so exactly as many naive items are produced as there are
      items left in it; the counter of regression.rs:230 is an [i32]. *)
  Definition mase (data estimate : list F) : result (list F) :=
    let mae_est := skipn 1 (mae data estimate) in
    let* z := zip_i32 (firstn (length mae_est) (windows 2 data)) in
    let naive := scan (fun state '(w, cnt) =>
                         let state' := state + fabs (at_ w 1 - at_ w 0) in
                         (state', state' / fofnat cnt)) #0 z in
    Ok (fnan :: map (fun '(est, nv) => est / nv) (combine mae_est naive)).

  (** regression.rs:259-269 [emae] *)
  Definition emae (data estimate : list F) : result (list F) :=
    let* z := zip_i32 (combine data estimate) in
    Ok (scan (fun '(s0, s1) '((actual, est), n) =>
                let s0' := s0 + fabs (actual - est) in
                let s1' := s1 + fmax actual est in
                ((s0', s1'), s0' / s1' * #100 / fofnat n)) (#0, #0) z).
End Regression.
