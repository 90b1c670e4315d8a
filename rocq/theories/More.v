(** * More: further closed forms. *)

From Coq Require Import Reals Lra Lia.
From Verif Require Import Base BaseFacts Num XReal XRFacts RSpec Spec Distribution DistReal Volatility Bars.
Local Unset Implicit Arguments.
Local Open Scope R_scope.

(** [volatility::std_dev]: the population standard deviation of the window times
    the number of deviations, two by default. *)
Theorem vstd_dev_real l w dev : (0 < w)%nat ->
  exists o, vstd_dev (map Fin l) w (option_map Fin dev) = Ok o /\
  aligned o (length l) (w - 1) NaN (fun i => Fin (sqrt (var (win w l i)) * match dev with Some d => d | None => 2 end)).
Proof.
  intros Hw. destruct (std_dev_real l w Hw) as (s & Es & L & P & V). unfold vstd_dev. rewrite Es. cbn [bind]. eexists. split; [reflexivity|].
  assert (D : unwrap_or (option_map Fin dev) (flit 2 1) = Fin match dev with Some d => d | None => 2 end) by (destruct dev; [reflexivity|apply x_lit]).
  rewrite D. split; [now rewrite map_length|]. split; intros i; intros Hi; rewrite nth_error_map.
  - now rewrite P.
  - now rewrite V.
Qed.
Example vstd_dev_real_case := vstd_dev_real [1; 4; 9; 16; 25; 7] 3 (Some 3) ltac:(lia).
