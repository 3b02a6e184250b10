(** C106: the rates of the sweep with rounding. *)
From Coq Require Import ZArith List Reals Lra Lia.
From Flocq Require Import Core.Core IEEE754.BinarySingleNaN.
From Verif Require Import Float_Model Float_Spec FloatTime_Spec FloatTime_Proofs FloatRate_Model FloatRate_Spec FloatRate_Proofs.
Import ListNotations.
Local Open Scope R_scope.

(** However the tasks of the cells upwind and of the cell itself follow each other: after [n] of them the rate that enters the
    cell differs from the shares of the last rates of the cells upwind at most by [n 2^-50] of the largest rate there was. *)
Theorem C106_incoming_error ws M events : Forall a_weight ws -> moderate M -> moderate (sum_of ws * M) ->
  Forall (possible (length ws) M) events -> (Z.of_nat (length events) <= 2 ^ 50)%Z ->
  finite (incoming (run ws events)) /\
  Rabs (value (incoming (run ws events)) - entering ws events) <= INR (length events) * bpow radix2 (-50) * (sum_of ws * M).
Proof. exact (incoming_error ws M events). Qed.
Print Assumptions C106_incoming_error.

(** When the task of the cell is solved, the rate is not negative. *)
Theorem C106_own_not_negative ws M events : Forall a_weight ws -> moderate M -> moderate (sum_of ws * M) ->
  Forall (possible (length ws) M) events -> (Z.of_nat (length events) <= 2 ^ 50)%Z ->
  0 <= value (incoming (run ws (events ++ [Own]))).
Proof. exact (own_not_negative ws M events). Qed.
Print Assumptions C106_own_not_negative.

(** Before that it can be negative; nothing makes the rate through a periodic boundary, which is summed up in the same way,
    positive, so that the rate of a cell can be negative. *)
Theorem C106_not_negative_refuted : exists ws M events, Forall a_weight ws /\ moderate M /\ moderate (sum_of ws * M) /\
  Forall (possible (length ws) M) events /\ ~ In Own events /\ value (incoming (run ws events)) < 0 /\
  value (rate_of_site zero zero (incoming (run ws events))) < 0.
Proof. exact rate_negative. Qed.
Print Assumptions C106_not_negative_refuted.

(** The error is not small compared with the rate itself: after a bright source has become faint nothing may be left of it. *)
Theorem C106_relative_error_refuted : exists ws M events, Forall a_weight ws /\ moderate M /\ moderate (sum_of ws * M) /\
  Forall (possible (length ws) M) events /\ 0 < entering ws events /\ value (incoming (run ws events)) = 0.
Proof. exact rate_lost. Qed.
Print Assumptions C106_relative_error_refuted.

(** The shares of the downwind faces lie between zero and one and add up to one but for the errors. *)
Theorem C106_shares areas : Forall a_step areas -> areas <> [] -> (Z.of_nat (length areas) <= 2 ^ 40)%Z -> total areas <= bpow radix2 900 ->
  Forall (fun w => finite w /\ 0 <= value w <= 1) (shares areas) /\
  Rabs (sum_of (shares areas) - 1) <= INR (length areas) * bpow radix2 (-50).
Proof. exact (shares_close areas). Qed.
Print Assumptions C106_shares.

(** A cell sends off at most what enters it, nothing below the threshold, and else the rounded product. *)
Theorem C106_outgoing threshold fraction inc : finite threshold -> finite fraction -> 0 <= value fraction <= 1 -> finite inc ->
  0 <= value inc <= bpow radix2 900 ->
  let out := outgoing threshold fraction inc in finite out /\ 0 <= value out <= value inc /\
  (value inc < value threshold -> value out = 0) /\
  (value threshold <= value inc -> Rabs (value out - value inc * value fraction) <= bpow radix2 (-53) * (value inc * value fraction) + bpow radix2 (-1074)).
Proof. exact (outgoing_bounds threshold fraction inc). Qed.
Print Assumptions C106_outgoing.

(** The rate of a cell is the sum of its three parts but for the errors. *)
Theorem C106_rate_of_site i s p : finite i -> finite s -> finite p -> 0 <= value i <= bpow radix2 900 -> 0 <= value s <= bpow radix2 900 ->
  0 <= value p <= bpow radix2 900 ->
  finite (rate_of_site i s p) /\ 0 <= value (rate_of_site i s p) /\
  Rabs (value (rate_of_site i s p) - (value i + value s + value p)) <= bpow radix2 (-51) * (value i + value s + value p) + bpow radix2 (-1072).
Proof. exact (rate_of_site_close i s p). Qed.
Print Assumptions C106_rate_of_site.

(** A rate that is not a number makes the rate of the next cell one for ever, whatever happens later, and is passed on. *)
Theorem C106_not_a_number ws s j events : incoming (fold_left (step ws) (Upwind j B754_nan :: events) s) = B754_nan /\
  forall threshold fraction, outgoing threshold fraction B754_nan = B754_nan.
Proof. exact (conj (nan_spreads ws s j events) nan_outgoing). Qed.
Print Assumptions C106_not_a_number.

(** Numbers that meet the hypotheses: one cell upwind whose rate is one, then 2^-60, then the task of the cell. *)
Example C106_example : Forall a_weight [one] /\ moderate 1 /\ moderate (sum_of [one] * 1) /\
  Forall (possible 1 1) [Upwind 0 one; Upwind 0 faint; Own] /\ entering [one] [Upwind 0 one; Upwind 0 faint; Own] = bpow radix2 (-60).
Proof.
  destruct one_weight as [W S]. rewrite S, Rmult_1_r. split; [exact W|]. split; [exact moderate_1|]. split; [exact moderate_1|]. split.
  - constructor; [|constructor; [|constructor; [|constructor]]]; [split; [lia | exact one_ok] | split; [lia | exact faint_ok] | exact I].
  - unfold entering. cbn [entering_from last_rate existsb Nat.eqb andb orb negb]. rewrite one_value, faint_value. lra.
Qed.
(** Three faces of area 0.1; four equal faces get a quarter each. *)
Example C106_example_shares : Forall a_step [tenth; tenth; tenth] /\ map to_Q (shares [one; one; one; one]) = repeat (to_Q (lit 1 (-2))) 4 /\
  to_Q (fold_left add (shares [tenth; tenth; tenth]) zero) = to_Q one.
Proof. split; [exact (a_step_repeat tenth 3 (proj1 tenth_step))|]. split; vm_compute; reflexivity. Qed.
(** Half of the rate one passes; a rate of 0.1 is below the threshold one. *)
Example C106_example_outgoing : to_Q (outgoing tenth (lit 1 (-1)) one) = to_Q (lit 1 (-1)) /\ outgoing one (lit 1 (-1)) tenth = zero.
Proof. split; vm_compute; reflexivity. Qed.
