(** Model of the search for the scale factor and of the time between scale factors,
    [/repo/src/cosmology.rs]. *)
From Coq Require Import QArith Qabs Reals.

(** ** The search *)

(** What the search finds out about a guess: the value is within the threshold, or it is
    negative or positive. *)
Inductive verdict : Type := Close | Below | Above.

(** [depth_limited_binary_search], cosmology.rs 135-158, over any kind of numbers; [fuel]
    is the number of guesses that are left, [None] is the panic. *)
Fixpoint depth_limited_binary_search {A} (mid : A -> A -> A) (judge : A -> verdict)
    (fuel : nat) (min max : A) : option A :=
  match fuel with
  | O => None
  | S fuel' =>
      let guess := mid min max in
      match judge guess with
      | Close => Some guess
      | Below => depth_limited_binary_search mid judge fuel' guess max
      | Above => depth_limited_binary_search mid judge fuel' min guess
      end
  end.

(** Depths 0 to [MAX_DEPTH] (142) make a guess. *)
Definition num_guesses : nat := 101.

(** With rational numbers. [is_sign_negative] (152) is read as [< 0]; the two zeros never
    get there as the threshold is not negative. *)
Definition judge_q (f : Q -> Q) (threshold : Q) (guess : Q) : verdict :=
  if Qle_bool (Qabs (f guess)) threshold then Close
  else if Qle_bool 0 (f guess) then Above else Below.
Definition mid_q (min max : Q) : Q := ((min + max) / 2)%Q.

(** [binary_search], 131-133. *)
Definition binary_search (f : Q -> Q) (min max threshold : Q) : option Q :=
  depth_limited_binary_search mid_q (judge_q f threshold) num_guesses min max.

(** ** The cosmology, with real numbers *)

Local Open Scope R_scope.

(** [HUBBLE], 83, and [CosmologyParams], 26-31. *)
Definition hubble : R := 32407789 / 10 ^ 25.
Record cosmology_params : Type := CosmologyParams { omega_0 : R; omega_lambda : R }.

(** The closure [time], 93-99. [a.powf(1.5)] is [a * sqrt a], for [a >= 0]. *)
Definition time (c : cosmology_params) (a : R) : R :=
  let factor1 := 2 / (3 * sqrt (omega_lambda c)) in
  let term1 := sqrt (omega_lambda c / omega_0 c) * (a * sqrt a) in
  let term2 := sqrt (1 + omega_lambda c / omega_0 c * (a * a * a)) in
  factor1 * ln (term1 + term2).

(** [CosmologyParams::time_difference_between_scalefactors], 77-104; [None] is
    [unimplemented!]. In seconds. *)
Definition time_difference (c : cosmology_params) (a0 a1 h : R) : option R :=
  if Rgt_dec (Rabs ((omega_lambda c + omega_0 c) - 1)) (1 / 100) then None
  else Some ((time c a1 - time c a0) / (hubble * h)).

Definition judge_r (f : R -> R) (threshold : R) (guess : R) : verdict :=
  if Rle_dec (Rabs (f guess)) threshold then Close
  else if Rlt_dec (f guess) 0 then Below else Above.
Definition mid_r (min max : R) : R := (min + max) / 2.

(** [Time::years(100.0)] in seconds (123); a year has 3.15576e7 seconds, units/mod.rs 48. *)
Definition hundred_years : R := 100 * 31557600.

(** [get_scalefactor_from_scalefactor_and_time_difference], 108-128. The test for a flat
    universe has the same result at every guess. *)
Definition scalefactor_after (c : cosmology_params) (a h delta_t : R) : option R :=
  if Rgt_dec (Rabs ((omega_lambda c + omega_0 c) - 1)) (1 / 100) then None
  else
    let f a1 := (time c a1 - time c a) / (hubble * h) - delta_t in
    depth_limited_binary_search mid_r (judge_r f hundred_years) num_guesses 0 1.
