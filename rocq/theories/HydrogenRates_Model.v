(** Model of the rates of [/repo/src/chemistry/hydrogen_only/mod.rs]
    (lines 137-354) and of the reported rates
    ([/repo/src/sweep/chemistry_output.rs]).

    Simplifications.  Numbers are real numbers.  Quantities with a
    dimension are given by their values in one system of units (cgs and
    kelvin), so that a conversion of units is a factor 1; the physical
    constants are arbitrary numbers of that system.  [powf] is [Rpower],
    which agrees with it for positive bases. *)
From Coq Require Import Reals.
Open Scope R_scope.

(** Functions of the temperature alone.  The value in kelvin is [t]. *)

(** [collision_fit_function], 161-164. *)
Definition collision_fit (t : R) : R :=
  sqrt t / (1 + sqrt (t / 100000)) * exp (- (1578091 / 10) / t).

(** [collision_fit_function_derivative], 166-173. *)
Definition collision_fit_derivative (t : R) : R :=
  let const1 := 1 / 100000 in
  let const2 := 1578091 / 10 in
  exp (- const2 / t)
    * (const1 * const2 * t + 5 / 10 * sqrt (const1 * t) * (2 * const2 + t))
  / (sqrt (t ^ 3) * sqrt (const1 * t) * (sqrt (const1 * t) + 1) ^ 2).

(** [case_b_recombination_rate], 175-180. *)
Definition recombination (t : R) : R :=
  let lambda := 315614 / t in
  2753 / 10 ^ 17 * Rpower lambda (15 / 10)
  / Rpower (1 + Rpower (lambda / (274 / 100)) (407 / 1000)) (2242 / 1000).

(** [case_b_recombination_rate_derivative], 182-194. *)
Definition recombination_derivative (t : R) : R :=
  let lambda := 315614 / t in
  let dlambda_dt := - 315614 / t ^ 2 in
  let c1 := 1 / (274 / 100) in
  let c2 := 407 / 1000 in
  let c3 := 2242 / 1000 in
  let d := - sqrt lambda
           * Rpower (Rpower (c1 * lambda) c2 + 1) (- c3 - 1)
           * (c2 * c3 * Rpower (c1 * lambda) c2
              - 15 / 10 * Rpower (c1 * lambda) c2 - 15 / 10) in
  2753 / 10 ^ 17 * d * dlambda_dt.

(** [case_b_recombination_cooling_rate], 196-202. *)
Definition recombination_cooling (t : R) : R :=
  let lambda := 315614 / t in
  3435 / 10 ^ 33 * t * Rpower lambda (197 / 100)
  / Rpower (1 + Rpower (lambda / (225 / 100)) (376 / 1000)) (372 / 100).

(** [case_b_recombination_cooling_rate_derivative], 204-216. *)
Definition recombination_cooling_derivative (t : R) : R :=
  let c1 := 315614 in
  let c2 := 197 / 100 in
  let c3 := 376 / 1000 in
  let c4 := 372 / 100 in
  let c5 := 225 / 100 in
  let derivative :=
    Rpower (1 + Rpower (c1 / (c5 * t)) c3) (- 1 - c4)
    * (1 - 1 * c2 + (1 - 1 * c2 + c3 * c4) * Rpower (c1 / (c5 * t)) c3)
    * Rpower (c1 / t) c2 in
  3435 / 10 ^ 33 * derivative.

(** [collisional_ionization_rate] and its derivative, 218-225. *)
Definition ionization (t : R) : R := 585 / 10 ^ 13 * collision_fit t.
Definition ionization_derivative (t : R) : R :=
  585 / 10 ^ 13 * collision_fit_derivative t.

(** [collisional_ionization_cooling_rate] and its derivative, 227-235. *)
Definition ionization_cooling (t : R) : R :=
  127 / 10 ^ 23 * collision_fit t.
Definition ionization_cooling_derivative (t : R) : R :=
  127 / 10 ^ 23 * collision_fit_derivative t.

(** [collisional_excitation_cooling_rate], 237-242. *)
Definition excitation_cooling (t : R) : R :=
  75 / 10 ^ 20 / (1 + sqrt (t / 100000)) * exp (- 118348 / t).

(** [collisional_excitation_cooling_rate_derivative], 244-253. *)
Definition excitation_cooling_derivative (t : R) : R :=
  let c1 := 75 / 10 ^ 20 in
  let c2 := 118348 in
  let c3 := 1 / 100000 in
  c1 * exp (- c2 / t)
    * (c2 * c3 * t - 5 / 10 * c3 * t ^ 2 + c2 * sqrt (c3 * t))
  / (t ^ 2 * sqrt (c3 * t) * (1 + sqrt (c3 * t)) ^ 2).

(** [bremsstrahlung_cooling_rate] and its derivative, 255-263. *)
Definition bremsstrahlung_cooling (t : R) : R := 142 / 10 ^ 29 * sqrt t.
Definition bremsstrahlung_cooling_derivative (t : R) : R :=
  142 / 10 ^ 29 / (2 * sqrt t).

(** [compton_cooling_rate] and its derivative, 265-273; [a] is the scale
    factor. *)
Definition compton_cooling (a t : R) : R :=
  let x := 2727 / 1000 / a in
  1017 / 10 ^ 40 * x ^ 4 * (t - x).
Definition compton_cooling_derivative (a t : R) : R :=
  let x := 2727 / 1000 / a in
  1017 / 10 ^ 40 * x ^ 4.

(** [Solver], 126-135, without the floor. *)
Record solver : Type := Solver {
  fraction : R; temperature : R; density : R; volume : R; length : R;
  rate : R; scale_factor : R }.

Section Solver.
(** [PROTON_MASS], [BOLTZMANN_CONSTANT], [GAMMA],
    [NUMBER_WEIGHTED_AVERAGE_CROSS_SECTION], [PHOTON_AVERAGE_ENERGY] and
    [RYDBERG_CONSTANT], units/mod.rs 101-108. *)
Variables proton_mass boltzmann gamma sigma photon_energy rydberg : R.

(** [hydrogen_number_density] to [mu], 139-159. *)
Definition n_hydrogen (s : solver) : R := density s / proton_mass.
Definition n_ionized (s : solver) : R := n_hydrogen s * fraction s.
Definition n_neutral (s : solver) : R := n_hydrogen s * (1 - fraction s).
Definition n_electron (s : solver) : R := n_ionized s.
Definition mu (s : solver) : R := 1 / (fraction s + 1).

(** [cooling_rate], 275-287. *)
Definition cooling_rate (s : solver) : R :=
  let t := temperature s in
  let ne := n_electron s in
  let nh_neutral := n_neutral s in
  let nh_ionized := n_ionized s in
  let collisional :=
    (excitation_cooling t + ionization_cooling t) * ne * nh_neutral in
  let recombination := recombination_cooling t * ne * nh_ionized in
  let bremsstrahlung := bremsstrahlung_cooling t * ne * nh_ionized in
  let compton := compton_cooling (scale_factor s) t * ne in
  collisional + recombination + bremsstrahlung + compton.

(** [cooling_rate_derivative], 289-302. *)
Definition cooling_rate_derivative (s : solver) : R :=
  let t := temperature s in
  let ne := n_electron s in
  let nh_neutral := n_neutral s in
  let nh_ionized := n_ionized s in
  let collisional :=
    (excitation_cooling_derivative t + ionization_cooling_derivative t)
    * ne * nh_neutral in
  let recombination :=
    recombination_cooling_derivative t * ne * nh_ionized in
  let bremsstrahlung :=
    bremsstrahlung_cooling_derivative t * ne * nh_ionized in
  let compton := compton_cooling_derivative (scale_factor s) t * ne in
  collisional + recombination + bremsstrahlung + compton.

(** [num_newly_ionized_hydrogen_atoms], 312-319. *)
Definition newly_ionized (s : solver) (timestep : R) : R :=
  let absorbed_fraction := 1 - exp (- n_neutral s * sigma * length s) in
  let num_photons := timestep * rate s in
  num_photons * absorbed_fraction.

(** [photoheating_rate], 321-325. *)
Definition photoheating_rate (s : solver) (timestep : R) : R :=
  let ionization_density := newly_ionized s timestep / volume s in
  ionization_density * (photon_energy - rydberg) / timestep.

(** [photoionization_rate], 327-332. *)
Definition photoionization_rate (s : solver) (timestep : R) : R :=
  let fraction_ionized :=
    newly_ionized s timestep / (n_neutral s * volume s) in
  fraction_ionized / timestep.

(** [temperature_change], 304-310. *)
Definition temperature_change (s : solver) (timestep : R) : R :=
  let k := (gamma - 1) * proton_mass / (density s * boltzmann) in
  let lambda := photoheating_rate s timestep - cooling_rate s in
  let dlambdadt := - cooling_rate_derivative s in
  let mu := mu s in
  k * mu * lambda * timestep / (1 - k * mu * dlambdadt * timestep).

(** [HYDROGEN_MASS_FRACTION], 32. *)
Definition hydrogen_mass_fraction : R := 1.

(** [ionized_fraction_change], 334-354. *)
Definition ionized_fraction_change (s : solver) (timestep : R) : R :=
  let nh := n_hydrogen s in
  let ne := n_electron s in
  let t := temperature s in
  let alpha := recombination t in
  let dalpha := recombination_derivative t in
  let beta := ionization t in
  let dbeta := ionization_derivative t in
  let c := beta * ne + photoionization_rate s timestep in
  let mu := mu s in
  let d := alpha * ne in
  let xhii := fraction s in
  let rhsc := ne * t * mu * hydrogen_mass_fraction * dbeta in
  let dcdx := nh * beta - rhsc in
  let rhsd := ne * t * mu * hydrogen_mass_fraction * dalpha in
  let dddx := nh * alpha - rhsd in
  let j := dcdx - (c + d) - xhii * (dcdx + dddx) in
  timestep * (c - xhii * (c + d)) / (1 - j * timestep).

(** [HydrogenOnly::get_outgoing_rate], 72-88, for the cell that the
    solver describes. *)
Definition outgoing_rate (threshold : R) (s : solver) : R :=
  if Rlt_dec (rate s) threshold then 0
  else rate s * exp (- n_neutral s * sigma * length s).

(** The reported rates, chemistry_output.rs 16-56; [year] is the
    constant timestep of lines 16-20. *)
Definition reported_photoionization (year : R) (s : solver) : R :=
  photoionization_rate s year.
Definition reported_heating (year : R) (s : solver) : R :=
  photoheating_rate s year - cooling_rate s.
Definition reported_recombination (s : solver) : R :=
  recombination (temperature s) * n_electron s * fraction s.
Definition reported_ionization (s : solver) : R :=
  ionization (temperature s) * n_electron s * (1 - fraction s).
End Solver.
