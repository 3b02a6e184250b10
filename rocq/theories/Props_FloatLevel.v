(** C101: the timestep level with the rounding of the quotient and of the logarithm. *)
From Coq Require Import ZArith Reals Lra Lia.
From Flocq Require Import Core.Core IEEE754.BinarySingleNaN.
From Verif Require Import Float_Model Float_Spec FloatLevel_Model FloatLevel_Spec FloatLevel_Proofs.
Local Open Scope R_scope.

(** The level is below the number of levels and the step is exactly the longest step divided by two to the power of the level.
    Unless the level is the deepest, the step exceeds the desired one at most by the error of the logarithm and of the quotient;
    unless it is the first, the step is not shorter than half of the desired one but for these errors. *)
Theorem C101_step_bounds log2 e n max desired : accurate e log2 -> (1 <= n <= 100)%Z -> finite max -> finite desired ->
  moderate (value max) -> 0 < value desired -> moderate (value max / value desired) ->
  let level := level64 log2 n max desired in let step := timestep64 level max in
  (0 <= level < n)%Z /\ finite step /\ value step = value max * bpow radix2 (- level) /\
  ((level < n - 1)%Z -> value step <= value desired * Rpower 2 e * (1 + bpow radix2 (-52))) /\
  ((0 < level)%Z -> value desired / 2 <= value step * Rpower 2 e * (1 + bpow radix2 (-52))).
Proof. exact (level_bounds log2 e n max desired). Qed.
Print Assumptions C101_step_bounds.

(** With every correctly rounded logarithm there is a case in which a deeper level exists but the step is longer than desired. *)
Theorem C101_step_not_longer_refuted : exists n max desired, finite max /\ finite desired /\ moderate (value max) /\ 0 < value desired /\
  moderate (value max / value desired) /\ forall log2, correctly_rounded log2 ->
    (level64 log2 n max desired < n - 1)%Z /\ value desired < value (timestep64 (level64 log2 n max desired) max).
Proof. exact can_exceed. Qed.
Print Assumptions C101_step_not_longer_refuted.

(** A desired step of zero gives the deepest level; an infinite one, and one that is not a number, give the longest step. *)
Theorem C101_extremes log2 n max : standard_limits log2 -> (1 <= n <= 2 ^ 64)%Z -> finite max -> 0 < value max ->
  level64 log2 n max (B754_zero false) = (n - 1)%Z /\ level64 log2 n max (B754_infinity false) = 0%Z /\ level64 log2 n max B754_nan = 0%Z.
Proof. exact (extremes log2 n max). Qed.
Print Assumptions C101_extremes.

(** A logarithm with these properties exists, and numbers that meet the hypotheses. *)
Example C101_example_log2 : correctly_rounded best_log2 /\ accurate (bpow radix2 (-43)) best_log2.
Proof. exact (conj best_log2_rounded best_log2_accurate). Qed.
Example C101_example_numbers : finite above_sixteen /\ finite one /\ moderate (value above_sixteen) /\ 0 < value one /\
  moderate (value above_sixteen / value one).
Proof. exact above_sixteen_ok. Qed.
Example C101_example_limits : standard_limits (limits_of best_log2).
Proof. repeat split. Qed.
(** A quotient of three is put on the second level: the step is a quarter of the longest one. *)
Example C101_example_level : level64 (fun _ => lit 3 (-1)) 10 (lit 3 0) one = 2%Z /\ level64 (fun _ => lit 3 (-1)) 2 (lit 3 0) one = 1%Z.
Proof. split; reflexivity. Qed.
