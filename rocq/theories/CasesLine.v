(** * The theorems of [Line] applied to thirty bars of the line 10, 10.5, 11, ... *)
From Coq Require Import Reals Lra Lia List NArith.
From Verif Require Import Base Num XReal Spec RSpec Bars Smooth Volatility Momentum Trend Distribution Line.
Local Unset Implicit Arguments.
Local Open Scope R_scope.

Example sma_line_case := sma_line 10 (1 / 2) 30 4 ltac:(lia).
Example wma_line_case := wma_line 10 (1 / 2) 30 4 ltac:(lia) ltac:(vm_compute; easy).
Example pwma_line_case := pwma_line 10 (1 / 2) 30 4 ltac:(lia).
Example trima_line_case := trima_line 10 (1 / 2) 30 4 ltac:(lia).
Example hull_line_case := hull_line 10 (1 / 2) 30 9 ltac:(lia) ltac:(vm_compute; easy) ltac:(vm_compute; lia).
Example lrf_line_case := lrf_line 10 (1 / 2) 30 4 ltac:(lia) ltac:(vm_compute; easy).
Example ewma_line_case := ewma_line 10 (1 / 2) 30 4 ltac:(lia).
Example wilder_line_case := wilder_line 10 (1 / 2) 30 4 ltac:(lia).
Example dema_line_case := dema_line 10 (1 / 2) 30 4 ltac:(lia) ltac:(lia).
Example tema_line_case := tema_line 10 (1 / 2) 30 4 ltac:(lia) ltac:(lia).
Example t3_line_case := t3_line 10 (1 / 2) 30 4 None ltac:(lia) ltac:(lia).
Example zlma_line_case := zlma_line 10 (1 / 2) 30 4 ltac:(lia) ltac:(vm_compute; lia).
Example macd_line_case := macd_line 10 (1 / 2) 30 4 7 ltac:(lia) ltac:(lia).
Example dpo_line_case := dpo_line 10 (1 / 2) 30 4 ltac:(lia).
Example variance_line_case := variance_line 10 (1 / 2) 30 4 ltac:(lia).
Example std_dev_line_case := std_dev_line 10 (1 / 2) 30 4 ltac:(lia).
Example bbands_line_case := bbands_line 10 (1 / 2) 30 4 ltac:(lia).
Example zscore_line_case := zscore_line 10 (1 / 2) 30 4 ltac:(lia) ltac:(lra).
Example donchian_line_case := donchian_line 10 (1 / 2) 30 4 ltac:(lia) ltac:(lra).
