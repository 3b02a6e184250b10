(** C107: the chemistry keeps numbers of type [f64] in their bounds, whatever the rates are. *)
From Coq Require Import ZArith Reals Lra Lia.
From Flocq Require Import Core.Core IEEE754.BinarySingleNaN.
From Verif Require Import Float_Model Float_Spec Float_Proofs FloatChem_Model FloatChem_Spec FloatChem_Proofs.
Local Open Scope R_scope.

(** For all changes that the rates may ask for, infinite ones and those that are not numbers included: the update does not
    panic, the temperature is a number that is not negative, the fraction lies in its bounds, and if cooling is prevented neither
    is smaller than before. *)
Theorem C107_stays_valid prevent dT dX safety s h : a_safety safety -> not_negative (temperature s) -> in_bounds (fraction s) ->
  exists s' r, update_abundances prevent dT dX safety s h = Some (s', r) /\ not_negative (temperature s') /\ in_bounds (fraction s') /\
  (prevent = true -> lt (temperature s') (temperature s) = false /\ value (fraction s) <= value (fraction s')).
Proof. exact (abundances_valid prevent dT dX safety s h). Qed.
Print Assumptions C107_stays_valid.

(** If cooling is not prevented, the first update also brings every fraction that is a number into the bounds. *)
Theorem C107_repaired dT dX safety s h : a_safety safety -> not_negative (temperature s) -> fraction s <> B754_nan ->
  exists s' r, update_abundances false dT dX safety s h = Some (s', r) /\ not_negative (temperature s') /\ in_bounds (fraction s').
Proof. exact (abundances_repaired dT dX safety s h). Qed.
Print Assumptions C107_repaired.

(** If it is prevented, this is not so: a fraction of one panics. *)
Theorem C107_repaired_with_floor_refuted : exists s, not_negative (temperature s) /\ finite (fraction s) /\ 0 <= value (fraction s) <= 1 /\
  forall dT dX safety h, update_abundances true dT dX safety s h = None.
Proof. exact floor_panics. Qed.
Print Assumptions C107_repaired_with_floor_refuted.

(** A change that is accepted is a finite number and at most the allowed fraction of the value, but for the rounding of the
    quotient. *)
Theorem C107_accepted_change v c f h r : a_safety f -> finite v -> bpow radix2 (-900) <= value v -> update64 v c f h = Some r ->
  finite c /\ Rabs (value c) <= value v * (value f * (1 + bpow radix2 (-52)) + bpow radix2 (-1073)) /\ fst r = add v c.
Proof. exact (accepted_change v c f h r). Qed.
Print Assumptions C107_accepted_change.

(** If the change of the temperature is never a number, nothing changes and a tenth of the timestep is recommended. *)
Theorem C107_not_a_number dX safety s h : a_safety safety -> in_bounds (fraction s) ->
  update_abundances false (fun _ _ => B754_nan) dX safety s h = Some (s, div h (lit 10 0)).
Proof. exact (nan_state dX safety s h). Qed.
Print Assumptions C107_not_a_number.

(** Numbers that meet the hypotheses, and the bounds. *)
Example C107_example : a_safety half /\ in_bounds half /\ not_negative half /\ bpow radix2 (-900) <= value half.
Proof.
  split; [exact half_safety|]. split; [exact half_bounds|]. split; [exact (bounds_not_negative _ half_bounds)|].
  rewrite half_value. replace (/ 2) with (bpow radix2 (-1)) by (cbn; lra). apply bpow_le. lia.
Qed.
Example C107_example_bounds : 0 < value fraction_epsilon < value largest_fraction /\ value largest_fraction < 1.
Proof. repeat split; [exact eps_pos | exact eps_lt | exact largest_lt]. Qed.
(** A change by a quarter of a half is accepted if half of the value is allowed; one by the value is not. *)
Example C107_example_update : option_map (fun p => (to_Q (fst p), to_Q (snd p))) (update64 half (lit 1 (-3)) half one) = Some (to_Q (lit 5 (-3)), to_Q (lit 1 1)) /\
  update64 half half half one = None.
Proof. split; vm_compute; reflexivity. Qed.
(** A step that is split into two halves: the fraction may grow by a quarter. *)
Example C107_example_split :
  option_map (fun p => (to_Q (temperature (fst p)), to_Q (fraction (fst p)))) (update_abundances true (fun _ _ => zero) (fun _ h => mul h (lit 1 (-2))) (lit 1 (-2)) (Gas one half) one) =
  Some (to_Q one, to_Q (lit 3 (-2))).
Proof. vm_compute; reflexivity. Qed.
