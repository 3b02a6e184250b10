(** C95: the start-up of the post-processing program.  C96: the sources
    read from the initial conditions. *)
From Coq Require Import QArith List Sorting.Permutation Lqa.
From Verif Require Import StartUp_Model StartUp_Spec StartUp_Proofs.
Import ListNotations.
Open Scope Q_scope.

(** C95.  For every order that the scheduler may choose in each stage,
    the particle ends with the given ionized fraction or, without one,
    with the one that follows from its electron abundance, with the
    temperature at which an ideal gas of its density and ionization has
    the energy that was read, with the mass of its cell, and without the
    components that are only used on the way. *)
Theorem C95_start_up :
  forall kb mp gamma initial cell rho u xe orders,
  0 < kb -> 0 < mp -> 1 < gamma -> 0 < rho ->
  (forall x, initial = Some x -> 0 <= x) ->
  Forall2 allowed stages orders ->
  let p := start_up kb mp gamma initial cell orders
             (read_particle initial rho u xe) in
  exists x t,
    fraction p = Some x
    /\ (forall y, initial = Some y -> x == y)
    /\ (initial = None ->
        nearest_within (1 # 10000000000) (9999999999 # 10000000000)
          ((19 # 25) * xe) x)
    /\ temperature p = Some t
    /\ ideal_gas kb gamma ((1 + x) * (rho / mp)) t (rho * u)
    /\ density p = Some rho /\ mass p = Some (rho * cell)
    /\ volume p = Some cell
    /\ photon_rate p = Some 0 /\ source p = Some 0
    /\ energy p = None /\ abundance p = None.
Proof. exact start_up_spec. Qed.
Print Assumptions C95_start_up.

(** The hypotheses hold for the order of main.rs. *)
Example C95_orders : Forall2 allowed stages (map systems_of stages).
Proof. exact own_orders_allowed. Qed.
Example C95_example :
  let p := start_up 1 2 (5 # 3) None 7 (map systems_of stages)
             (read_particle None 4 30 (25 # 38)) in
  match fraction p, temperature p, mass p, energy p, abundance p with
  | Some x, Some t, Some m, None, None =>
      Qeq_bool x (1 # 2) && Qeq_bool t (80 # 3) && Qeq_bool m 28
  | _, _, _, _, _ => false
  end = true.
Proof. vm_compute. reflexivity. Qed.

(** Without the order that main.rs asks for, the temperature would be
    that of neutral gas. *)
Example C95_other_order :
  let p := start_up 1 2 (5 # 3) None 7
             [[InsertFraction]; [InsertMissing; SetFraction];
              [InsertCell; RemoveEnergy; RemoveAbundance]; [ComputeMass]]
             (read_particle None 4 30 (25 # 38)) in
  match temperature p with Some t => Qeq_bool t 40 | None => false end = true.
Proof. vm_compute. reflexivity. Qed.

(** C95.  The two conversions between temperature and energy density are
    inverse to each other. *)
Theorem C95_energy_to_temperature_and_back :
  forall kb mp gamma, 0 < kb -> 0 < mp -> 1 < gamma ->
  forall e x rho, 0 < rho -> 0 <= x ->
  density_of_temperature kb mp gamma
    (temperature_of_density kb mp gamma e x rho) x rho == e.
Proof. exact temperature_round_trip. Qed.
Print Assumptions C95_energy_to_temperature_and_back.

Theorem C95_temperature_to_energy_and_back :
  forall kb mp gamma, 0 < kb -> 0 < mp -> 1 < gamma ->
  forall t x rho, 0 < rho -> 0 <= x ->
  temperature_of_density kb mp gamma
    (density_of_temperature kb mp gamma t x rho) x rho == t.
Proof. exact energy_round_trip. Qed.
Print Assumptions C95_temperature_to_energy_and_back.

Example C95_conversion_example :
  Qeq_bool (density_of_temperature 1 2 (5 # 3) 40 (1 # 2) 3) (135)
  && Qeq_bool (temperature_of_density 1 2 (5 # 3) 135 (1 # 2) 3) 40 = true.
Proof. vm_compute. reflexivity. Qed.

(** C95.  It is not so that the fraction is always kept away from 0 and
    1: a value given as parameter is taken as it is. *)
Theorem C95_fraction_within_bounds_refuted :
  exists initial orders p x, Forall2 allowed stages orders
  /\ p = start_up 1 2 (5 # 3) initial 7 orders (read_particle initial 4 30 0)
  /\ fraction p = Some x
  /\ ~ (x <= 9999999999 # 10000000000).
Proof.
  exists (Some 2), (map systems_of stages). eexists. exists 2.
  split; [exact C95_orders|]. split; [reflexivity|]. split; [reflexivity|].
  intros H. lra.
Qed.
Print Assumptions C95_fraction_within_bounds_refuted.
