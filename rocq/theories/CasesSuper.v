(** * The superposition theorems applied to thirty closes and thirty highs. *)
From Coq Require Import Reals Lra Lia.
From Verif Require Import Base Num XReal Spec RSpec Bars Case Super.
From Verif Require Import Smooth Volume Trend Momentum.
Local Unset Implicit Arguments.
Local Open Scope R_scope.

Notation A := (xseries closes 30).
Notation B := (xseries highs 30).
Example sma_super_case := sma_super A B eq_refl 3%nat.
Example ewma_super_case := ewma_super A B eq_refl 3%nat.
Example wma_super_case := wma_super A B eq_refl 3%nat.
Example pwma_super_case := pwma_super A B eq_refl 3%nat.
Example fwma_super_case := fwma_super A B eq_refl 3%nat.
Example trima_super_case := trima_super A B eq_refl 3%nat.
Example wilder_super_case := wilder_super A B eq_refl 3%nat.
Example dema_super_case := dema_super A B eq_refl 3%nat.
Example tema_super_case := tema_super A B eq_refl 3%nat.
Example hull_super_case := hull_super A B eq_refl 3%nat.
Example zlma_super_case := zlma_super A B eq_refl 3%nat.
Example lrf_super_case := lrf_super A B eq_refl 3%nat.
Example t3_super_case := t3_super A B eq_refl 3%nat None.
Example hwma_super_case := hwma_super A B eq_refl None None None.
Example ssf_super_case := ssf_super A B eq_refl 3%nat None ltac:(lia).
Example kernel_super_case := kernel_super A B eq_refl 4 ltac:(lra).
Example alma_super_case := alma_super A B eq_refl 3%nat 4 None ltac:(lra).
Example ma_super_case := ma_super A B eq_refl 3%nat Hull eq_refl.
Example macd_super_case := macd_super A B eq_refl 3%nat 5%nat.
Example apo_super_case := apo_super A B eq_refl 3%nat 5%nat.
Example dpo_super_case := dpo_super A B eq_refl 5%nat None eq_refl.
Example qstick_super_case := qstick_super A B eq_refl (xseries opens 30) (xseries lows 30) 3%nat eq_refl.
Example elder_ray_super_case := elder_ray_super A B eq_refl (xseries opens 30) (xseries lows 30) A A 3%nat eq_refl eq_refl.
Example alligator_super_case := alligator_super A B eq_refl 13%nat 8%nat 8%nat 5%nat 5%nat 3%nat.
Example obv_super_case := obv_super (xseries volumes 30) (xseries volumes 30) eq_refl A.
Example tvi_super_case := tvi_super (xseries volumes 30) (xseries volumes 30) eq_refl A (Fin (1 / 2)).
