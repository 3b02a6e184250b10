(** Model of the start-up of the post-processing program: the systems
    of [/repo/src/main.rs] that give each particle its initial chemical
    state, and the temperature of a gas of hydrogen
    ([/repo/src/units/specific_impls.rs]).

    Simplifications.  Numbers are exact rationals.  No system of this
    file looks at more than one particle, so the model follows one
    particle.  The particle is a record of its components, each present
    or absent.  The stages between [InsertDerivedComponents] and
    [InsertGrid] (decomposition, exchange, tree) and the remapping from
    another snapshot do not occur here: the model is of a run without
    [remap_from].  The deposition of sources is in [Sources_Model]. *)
From Coq Require Import QArith List Bool.
Import ListNotations.
Open Scope Q_scope.

(** The components of a particle that the systems of main.rs 145-217
    read, insert or remove. *)
Record particle : Type := Particle {
  density     : option Q;
  energy      : option Q;
  abundance   : option Q;
  fraction    : option Q;
  temperature : option Q;
  photon_rate : option Q;
  source      : option Q;
  mass        : option Q;
  volume      : option Q }.

(** [commands.entity(entity).insert(..)] and [remove::<C>()] for each
    of the components, main.rs 168-174, 187-191, 201 and
    simulation_plugin/mod.rs 175-182. *)
Definition with_fraction (x : option Q) (p : particle) : particle :=
  Particle (density p) (energy p) (abundance p) x (temperature p)
           (photon_rate p) (source p) (mass p) (volume p).
Definition with_mass (m : option Q) (p : particle) : particle :=
  Particle (density p) (energy p) (abundance p) (fraction p)
           (temperature p) (photon_rate p) (source p) m (volume p).
Definition with_volume (v : option Q) (p : particle) : particle :=
  Particle (density p) (energy p) (abundance p) (fraction p)
           (temperature p) (photon_rate p) (source p) (mass p) v.
Definition without_energy (p : particle) : particle :=
  Particle (density p) None (abundance p) (fraction p) (temperature p)
           (photon_rate p) (source p) (mass p) (volume p).
Definition without_abundance (p : particle) : particle :=
  Particle (density p) (energy p) None (fraction p) (temperature p)
           (photon_rate p) (source p) (mass p) (volume p).
Definition with_derived (t : Q) (p : particle) : particle :=
  Particle (density p) (energy p) (abundance p) (fraction p) (Some t)
           (Some 0) (Some 0) (Some 0) (volume p).

Section Constants.
(** [BOLTZMANN_CONSTANT], [PROTON_MASS] and [GAMMA], units/mod.rs
    100-110. *)
Variables kb mp gamma : Q.

(** [Temperature::to_internal_energy], units/specific_impls.rs 42-44. *)
Definition to_internal_energy (t mu : Q) : Q :=
  t * (kb / mp) * (1 / (gamma - 1)) / mu.

(** [EnergyPerMass::to_temperature], specific_impls.rs 57-59. *)
Definition to_temperature (u mu : Q) : Q :=
  u * mu * (gamma - 1) * mp / kb.

(** [Temperature::from_internal_energy_density_hydrogen_only],
    specific_impls.rs 46-53. *)
Definition temperature_of_density (e x rho : Q) : Q :=
  to_temperature (e / rho) (1 / (x + 1)).

(** [EnergyDensity::from_temperature_hydrogen_only],
    specific_impls.rs 63-71. *)
Definition density_of_temperature (t x rho : Q) : Q :=
  to_internal_energy t (1 / (x + 1)) * rho.

(** [Float::clamp]. *)
Definition clamp (lo hi x : Q) : Q :=
  if negb (Qle_bool lo x) then lo
  else if negb (Qle_bool x hi) then hi else x.

(** The bounds of the call at main.rs 214 and the hydrogen mass
    fraction of line 212. *)
Definition lowest : Q := 1 # 10000000000.
Definition highest : Q := 1 - lowest.
Definition xh : Q := 76 # 100.

(** [Parameters::initial_fraction_ionized_hydrogen] and the volume
    that the construction of the grid gives to the particle's cell. *)
Variable initial : option Q.
Variable cell : Q.

(** The start-up systems, in the order of main.rs 88-113; the plugin of
    the grid ([InsertGrid]) inserts the cell. *)
Inductive system : Type :=
| InsertFraction
| SetFraction
| InsertMissing
| InsertCell
| RemoveEnergy
| RemoveAbundance
| ComputeMass.

(** What a system does to the particle: at once (queries that borrow a
    component mutably), and what it leaves in its command queue. *)
Definition effect : Type := (particle * (particle -> particle))%type.

(** [insert_initial_ionized_fraction_system], main.rs 178-193. *)
Definition insert_fraction (p : particle) : effect :=
  (p, with_fraction (Some match initial with Some x => x | None => 0 end)).

(** [set_initial_ionized_fraction_from_electron_abundance_system],
    main.rs 205-217. *)
Definition set_fraction (p : particle) : effect :=
  match initial, abundance p, fraction p with
  | None, Some xe, Some _ =>
      (with_fraction (Some (clamp lowest highest (xh * xe))) p,
       fun q => q)
  | _, _, _ => (p, fun q => q)
  end.

(** [insert_missing_components_system], main.rs 158-176. *)
Definition insert_missing (p : particle) : effect :=
  match fraction p, energy p, density p with
  | Some x, Some u, Some rho =>
      (p, with_derived (temperature_of_density (u * rho) x rho))
  | _, _, _ => (p, fun q => q)
  end.

(** The systems that construct or read the grid insert the [Cell]
    (sweep/grid/cell.rs; voronoi/parallel/mod.rs or
    arepo_postprocess/read_grid/mod.rs). *)
Definition insert_cell (p : particle) : effect :=
  (p, with_volume (Some cell)).

(** [remove_components_system::<C>], simulation_plugin/mod.rs 175-182:
    only particles that have the component. *)
Definition remove_energy (p : particle) : effect :=
  (p, match energy p with Some _ => without_energy | None => fun q => q end).
Definition remove_abundance (p : particle) : effect :=
  (p, match abundance p with
      | Some _ => without_abundance | None => fun q => q end).

(** [compute_cell_mass_system], main.rs 195-203. *)
Definition compute_mass (p : particle) : effect :=
  match density p, volume p with
  | Some rho, Some v => (p, with_mass (Some (rho * v)))
  | _, _ => (p, fun q => q)
  end.

Definition run_system (s : system) (p : particle) : effect :=
  match s with
  | InsertFraction => insert_fraction p
  | SetFraction => set_fraction p
  | InsertMissing => insert_missing p
  | InsertCell => insert_cell p
  | RemoveEnergy => remove_energy p
  | RemoveAbundance => remove_abundance p
  | ComputeMass => compute_mass p
  end.

(** The stages, main.rs 86-113 and simulation_plugin/mod.rs 46-61.  A
    stage runs its systems in an order of the scheduler's choice; then
    the queues are applied, in the order in which the systems ran
    (bevy's [SystemStage]). *)
Inductive stage : Type :=
  ReadInput | InsertDerived | InsertGrid | AfterGrid.
Definition systems_of (st : stage) : list system :=
  match st with
  | ReadInput => [InsertFraction]
  | InsertDerived => [SetFraction; InsertMissing]
  | InsertGrid => [RemoveEnergy; RemoveAbundance; InsertCell]
  | AfterGrid => [ComputeMass]
  end.

(** The pairs [(a, b)] for which [b.after(a)] was requested, main.rs
    96-100. *)
Definition after_pairs : list (system * system) :=
  [(SetFraction, InsertMissing)].

Fixpoint run_stage (order : list system) (p : particle)
    (queue : list (particle -> particle)) : particle :=
  match order with
  | [] => fold_left (fun q f => f q) queue p
  | s :: rest =>
      let '(p', f) := run_system s p in run_stage rest p' (queue ++ [f])
  end.

(** The whole start-up with one order for each stage. *)
Fixpoint start_up (orders : list (list system)) (p : particle)
    : particle :=
  match orders with
  | [] => p
  | o :: rest => start_up rest (run_stage o p [])
  end.

End Constants.

(** The particle after [StartupStages::Initial]: the datasets that
    main.rs 75-85 and 123-140 read.  The electron abundance is read only
    when no initial fraction is given. *)
Definition read_particle (initial : option Q) (rho u xe : Q) : particle :=
  Particle (Some rho) (Some u)
           (match initial with None => Some xe | Some _ => None end)
           None None None None None None.

(** The stages in their order, simulation_plugin/mod.rs 46-61. *)
Definition stages : list stage :=
  [ReadInput; InsertDerived; InsertGrid; AfterGrid].
