(** C105: the time of the simulation, its end and the times of the snapshots with rounding. *)
From Coq Require Import ZArith List Reals Lra Lia.
From Flocq Require Import Core.Core IEEE754.BinarySingleNaN.
From Verif Require Import Float_Model Float_Spec FloatTime_Model FloatTime_Spec FloatTime_Proofs.
Import ListNotations.
Local Open Scope R_scope.

(** After [n] steps of any lengths the time differs from their sum at most by the fraction [n 2^-52]. *)
Theorem C105_time_error l : Forall a_step l -> (Z.of_nat (length l) <= 2 ^ 52)%Z -> total l <= bpow radix2 900 ->
  finite (time_after l) /\ relatively_close (INR (length l) * bpow radix2 (-52)) (value (time_after l)) (total l).
Proof. exact (time_close l). Qed.
Print Assumptions C105_time_error.

(** A step never takes the time back. *)
Theorem C105_time_grows l d : Forall a_step (l ++ [d]) -> (Z.of_nat (length l) <= 2 ^ 52)%Z -> total (l ++ [d]) <= bpow radix2 900 ->
  value (time_after l) <= value (time_after (l ++ [d])).
Proof. exact (time_grows l d). Qed.
Print Assumptions C105_time_grows.

(** If the final time is reached exactly with the [N]-th of equal steps, the run ends after at least [N - 1] and at most
    [N + 1] steps. *)
Theorem C105_number_of_steps d T N : a_step d -> value d <= bpow radix2 800 -> finite T -> (1 <= Z.of_nat N < 2 ^ 26)%Z ->
  (INR N - 1) * value d < value T <= INR N * value d ->
  stops (Some T) (time_after (repeat d (S N))) = true /\
  forall k, (k + 2 <= N)%nat -> stops (Some T) (time_after (repeat d k)) = false.
Proof. exact (number_of_steps d T N). Qed.
Print Assumptions C105_number_of_steps.

(** Without a final time, and with one that is not a number, no time ends the run. *)
Theorem C105_never_ends now : stops None now = false /\ stops (Some B754_nan) now = false.
Proof. exact (never_ends now). Qed.
Print Assumptions C105_never_ends.

(** It need not end after [N] steps, nor is a snapshot due at that time written then: the rounded time can be too small. *)
Theorem C105_exact_number_refuted : exists d T N, a_step d /\ finite T /\ (INR N - 1) * value d < value T <= INR N * value d /\
  stops (Some T) (time_after (repeat d N)) = false /\ due None T 1 (time_after (repeat d N)) = false.
Proof. exact one_step_more. Qed.
Print Assumptions C105_exact_number_refuted.

(** A snapshot is due after steps whose sum exceeds the exact time of the snapshot by the accumulated errors, and not due
    after steps whose sum is below it by them. *)
Theorem C105_snapshot_due f l b n : Forall a_step l -> a_first f -> a_step b -> (Z.of_nat (length l + n) < 2 ^ 50)%Z ->
  total l <= bpow radix2 900 -> exact_output_time f b n <= bpow radix2 900 ->
  let e := INR (length l + n + 1) * bpow radix2 (-51) in
  (exact_output_time f b n * (1 + e) <= total l -> due f b n (time_after l) = true) /\
  (total l * (1 + e) < exact_output_time f b n -> due f b n (time_after l) = false).
Proof. exact (snapshot_due f l b n). Qed.
Print Assumptions C105_snapshot_due.

(** Ten steps of 0.1 meet the hypotheses: for the final time 1 the run ends after eleven steps. *)
Example C105_example_steps : a_step tenth /\ value tenth <= bpow radix2 800 /\ finite one /\
  (INR 10 - 1) * value tenth < value one <= INR 10 * value tenth.
Proof.
  split; [apply tenth_step|]. split; [apply tenth_step|]. split; [reflexivity|]. rewrite tenth_value, one_value. cbn. lra.
Qed.
Example C105_example_end : stops (Some one) (time_after (repeat tenth 10)) = false /\ stops (Some one) (time_after (repeat tenth 11)) = true /\
  stops None (time_after (repeat tenth 11)) = false.
Proof. repeat split; vm_compute; reflexivity. Qed.
(** A snapshot every 0.1: number three is due after three steps, and one of interval 1 after eleven. *)
Example C105_example_due : due None tenth 3 (time_after (repeat tenth 3)) = true /\ due None tenth 3 (time_after (repeat tenth 2)) = false /\
  due (Some one) tenth 0 (time_after (repeat tenth 10)) = false /\ due (Some one) tenth 0 (time_after (repeat tenth 11)) = true.
Proof. repeat split; vm_compute; reflexivity. Qed.
(** Both premises of the theorem about snapshots occur: three steps; the second snapshot if the first is written at once,
    and the third if the first is written after 0.1. *)
Example C105_example_both : let e n := INR (3 + n + 1) * bpow radix2 (-51) in a_first (Some tenth) /\ exact_output_time None tenth 2 * (1 + e 2%nat) <= total (repeat tenth 3) /\
  total (repeat tenth 3) * (1 + e 3%nat) < exact_output_time (Some tenth) tenth 3.
Proof. split; [apply tenth_step|]. unfold exact_output_time. cbn [repeat total]. rewrite tenth_value. cbn. lra. Qed.
