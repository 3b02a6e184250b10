(** C97, C98, C99: the rates of the chemistry of hydrogen. *)
From Coq Require Import Reals Lra.
From Verif Require Import HydrogenRates_Model HydrogenRates_Spec
  HydrogenRates_Proofs.
Open Scope R_scope.

(** C97.  Each of the functions that the program calls a derivative is
    the derivative of the rate it belongs to, at all temperatures. *)
Theorem C97_recombination :
  derivative_of recombination recombination_derivative.
Proof. exact recombination_derive. Qed.
Print Assumptions C97_recombination.

Theorem C97_recombination_cooling :
  derivative_of recombination_cooling recombination_cooling_derivative.
Proof. exact recombination_cooling_derive. Qed.
Print Assumptions C97_recombination_cooling.

Theorem C97_ionization : derivative_of ionization ionization_derivative.
Proof. exact ionization_derive. Qed.
Print Assumptions C97_ionization.

Theorem C97_ionization_cooling :
  derivative_of ionization_cooling ionization_cooling_derivative.
Proof. exact ionization_cooling_derive. Qed.
Print Assumptions C97_ionization_cooling.

Theorem C97_excitation_cooling :
  derivative_of excitation_cooling excitation_cooling_derivative.
Proof. exact excitation_derive. Qed.
Print Assumptions C97_excitation_cooling.

Theorem C97_bremsstrahlung_cooling :
  derivative_of bremsstrahlung_cooling bremsstrahlung_cooling_derivative.
Proof. exact bremsstrahlung_derive. Qed.
Print Assumptions C97_bremsstrahlung_cooling.

Theorem C97_compton_cooling : forall a,
  derivative_of (compton_cooling a) (compton_cooling_derivative a).
Proof. exact compton_derive. Qed.
Print Assumptions C97_compton_cooling.

(** C97.  The same for the whole cooling rate of a gas. *)
Theorem C97_cooling : forall proton_mass s, 0 < temperature s ->
  derivable_pt_lim
    (fun t => cooling_rate proton_mass
       (Solver (fraction s) t (density s) (volume s) (length s) (rate s)
          (scale_factor s)))
    (temperature s) (cooling_rate_derivative proton_mass s).
Proof. exact cooling_derive. Qed.
Print Assumptions C97_cooling.

(** C97.  Gas that is not colder than the background does not gain energy
    from the cooling terms. *)
Theorem C97_cooling_nonnegative : forall proton_mass s,
  0 < temperature s -> 0 < proton_mass -> 0 <= density s ->
  0 <= fraction s <= 1 ->
  2727 / 1000 / scale_factor s <= temperature s ->
  0 <= cooling_rate proton_mass s.
Proof. exact cooling_nonnegative. Qed.
Print Assumptions C97_cooling_nonnegative.

(** Gas of 10000 kelvin at scale factor 1/10 meets the hypotheses. *)
Example C97_example :
  let s := Solver (1 / 2) 10000 1 1 1 1 (1 / 10) in
  0 < temperature s /\ 0 <= density s /\ 0 <= fraction s <= 1
  /\ 2727 / 1000 / scale_factor s <= temperature s.
Proof. simpl. lra. Qed.

(** C98.  The change of the temperature is one step of the linearised
    backward Euler method for the heating at fixed ionization. *)
Theorem C98_temperature :
  forall proton_mass boltzmann gamma sigma photon_energy rydberg s timestep,
  0 < temperature s -> density s <> 0 -> boltzmann <> 0 ->
  proton_mass <> 0 -> fraction s + 1 <> 0 ->
  let heat t := (gamma - 1) * proton_mass
      / (density s * boltzmann * (1 + fraction s))
      * (photoheating_rate proton_mass sigma photon_energy rydberg s timestep
         - cooling_rate proton_mass
             (Solver (fraction s) t (density s) (volume s) (length s) (rate s)
                (scale_factor s))) in
  exists d, derivable_pt_lim heat (temperature s) d
    /\ (1 - d * timestep <> 0 ->
        implicit_step (heat (temperature s)) d timestep
          (temperature_change proton_mass boltzmann gamma sigma photon_energy
             rydberg s timestep)).
Proof. exact temperature_step. Qed.
Print Assumptions C98_temperature.

(** C98.  The change of the ionized fraction is one step of the linearised
    backward Euler method for the balance of ionization and recombination
    at constant energy and constant rate of photoionization. *)
Theorem C98_fraction : forall proton_mass sigma s timestep,
  0 < temperature s -> 0 < 1 + fraction s ->
  let photo := photoionization_rate proton_mass sigma s timestep in
  let n := density s / proton_mass in
  exists j,
    (forall temp, (forall y, 0 < 1 + y ->
         same_energy (fraction s) (temperature s) y (temp y)) ->
       derivable_pt_lim
         (fun y => balance recombination ionization n photo y (temp y))
         (fraction s) j)
    /\ (1 - j * timestep <> 0 ->
        implicit_step
          (balance recombination ionization n photo (fraction s) (temperature s))
          j timestep (ionized_fraction_change proton_mass sigma s timestep)).
Proof. exact fraction_step. Qed.
Print Assumptions C98_fraction.

(** All hypotheses hold for neutral gas of optical depth 1, which does
    change. *)
Example C98_example : exists j,
  derivable_pt_lim (fun y => balance recombination ionization 1
     (photoionization_rate 1 1 (Solver 0 1 1 1 1 1 1) 1) y (1 / (1 + y))) 0 j
  /\ (forall y, 0 < 1 + y -> same_energy 0 1 y (1 / (1 + y)))
  /\ 1 - j * 1 <> 0
  /\ ionized_fraction_change 1 1 (Solver 0 1 1 1 1 1 1) 1 <> 0.
Proof.
  destruct witness_derivative as (j & d & A & _ & B & _ & _ & C).
  exists j. split; [exact A|]. split; [|split; assumption].
  intros y H. unfold same_energy. field. lra.
Qed.

(** C98.  It is not so that the step uses the derivative of the whole
    balance: that the rate of photoionization per atom changes with the
    ionized fraction is left out. *)
Theorem C98_whole_balance_refuted : exists s d,
  derivable_pt_lim (fun y => balance recombination ionization 1
     (photoionization_rate 1 1
        (Solver y (temperature s) (density s) (volume s) (length s) (rate s)
           (scale_factor s)) 1) y (1 / (1 + y))) (fraction s) d
  /\ ~ implicit_step (balance recombination ionization 1
         (photoionization_rate 1 1 s 1) (fraction s) (temperature s)) d 1
         (ionized_fraction_change 1 1 s 1).
Proof.
  destruct witness_derivative as (j & d & _ & A & _ & B & C & D).
  exists witness, d. split; [exact A|]. intros E. unfold implicit_step in *.
  apply B. apply (Rmult_eq_reg_r (ionized_fraction_change 1 1 witness 1)); [|exact D].
  simpl in E. lra.
Qed.
Print Assumptions C98_whole_balance_refuted.

(** C99.  The photons that a cell takes out of the radiation are those
    that ionize its atoms, each one atom, and their energy above the
    ionization energy heats the gas. *)
Theorem C99_photons : forall proton_mass sigma threshold s timestep,
  threshold <= rate s ->
  newly_ionized proton_mass sigma s timestep
  = timestep * (rate s - outgoing_rate proton_mass sigma threshold s).
Proof. exact photons_absorbed. Qed.
Print Assumptions C99_photons.

Theorem C99_ionized_and_heated :
  forall proton_mass sigma photon_energy rydberg s timestep,
  timestep <> 0 -> volume s <> 0 -> n_neutral proton_mass s <> 0 ->
  photoionization_rate proton_mass sigma s timestep
    * (n_neutral proton_mass s * volume s) * timestep
  = newly_ionized proton_mass sigma s timestep
  /\ photoheating_rate proton_mass sigma photon_energy rydberg s timestep
     * volume s * timestep
     = newly_ionized proton_mass sigma s timestep * (photon_energy - rydberg).
Proof. exact photons_ionize. Qed.
Print Assumptions C99_ionized_and_heated.

(** C99.  The rate of photoionization is at most that of optically thin
    gas, and not more atoms are ionized than photons arrive. *)
Theorem C99_bounds : forall proton_mass sigma s timestep,
  0 < proton_mass -> 0 < density s -> 0 <= fraction s < 1 -> 0 < sigma ->
  0 < length s -> 0 < volume s -> 0 <= rate s -> 0 < timestep ->
  0 <= photoionization_rate proton_mass sigma s timestep
    <= rate s * sigma * length s / volume s
  /\ 0 <= newly_ionized proton_mass sigma s timestep <= timestep * rate s.
Proof. exact photoionization_bounds. Qed.
Print Assumptions C99_bounds.

(** C99.  The rates in the output add up to the right-hand sides of the
    equations that the solver solves, whatever timestep is used. *)
Theorem C99_reported_fraction : forall proton_mass sigma year timestep s,
  year <> 0 -> timestep <> 0 ->
  reported_photoionization proton_mass sigma year s * (1 - fraction s)
  + reported_ionization proton_mass s - reported_recombination proton_mass s
  = balance recombination ionization (density s / proton_mass)
      (photoionization_rate proton_mass sigma s timestep)
      (fraction s) (temperature s).
Proof. exact reported_balance. Qed.
Print Assumptions C99_reported_fraction.

Theorem C99_reported_heating :
  forall proton_mass sigma photon_energy rydberg year timestep s,
  year <> 0 -> timestep <> 0 ->
  reported_heating proton_mass sigma photon_energy rydberg year s
  = photoheating_rate proton_mass sigma photon_energy rydberg s timestep
    - cooling_rate proton_mass s.
Proof. exact reported_heating_rate. Qed.
Print Assumptions C99_reported_heating.

(** The hypotheses hold for half ionized gas. *)
Example C99_example :
  let s := Solver (1 / 2) 10000 1 1 1 1 1 in
  0 < density s /\ 0 <= fraction s < 1 /\ 0 < length s /\ 0 < volume s
  /\ 0 <= rate s /\ n_neutral 1 s <> 0 /\ 1 / 2 <= rate s.
Proof. unfold n_neutral, n_hydrogen. simpl. lra. Qed.

(** C99.  It is not so below the threshold: the remaining photons are
    neither passed on nor used. *)
Theorem C99_below_threshold_refuted : exists threshold s,
  0 < rate s
  /\ newly_ionized 1 1 s 1
     < 1 * (rate s - outgoing_rate 1 1 threshold s).
Proof. exact photons_lost. Qed.
Print Assumptions C99_below_threshold_refuted.
