(** Model of src/sweep/time_series.rs: the averages which are written after every step. Floating point numbers are exact rationals. *)
From Coq Require Import List QArith Arith.
From Verif Require Import Timestep_Model.
Import ListNotations.
Local Open Scope Q_scope.

(** A local particle as the queries of [compute_time_series_system] (time_series.rs:62-80) see it: a query only returns the particles
    which have all the components it asks for. [volume] is that of the component [Cell]. *)
Record entity : Type := Entity {
  mass : option Q;
  volume : option Q;
  fraction : option Q;
  temperature : option Q;
  rate : option Q;
}.

Definition query1 {A B} (a : A -> option B) (l : list A) : list B :=
  flat_map (fun e => match a e with Some x => [x] | None => [] end) l.
Definition both {A B C} (a : A -> option B) (b : A -> option C) (e : A) : option (B * C) :=
  match a e, b e with Some x, Some y => Some (x, y) | _, _ => None end.
Definition query2 {A B C} (a : A -> option B) (b : A -> option C) : list A -> list (B * C) := query1 (both a b).

(** The sum of an iterator. *)
Definition sum (l : list Q) : Q := fold_left Qplus l 0.

(** time_series.rs:160-168 [compute_global_sum] and communication/mpi_world.rs:189-198 [all_gather_sum]: every rank gets the sum of
    what the ranks have summed up. *)
Definition compute_global_sum (locals : list (list Q)) : Q := sum (map sum locals).

(** Division; [None] is not a number, or infinite. *)
Definition divide (a b : Q) : option Q := if Qeq_bool b 0 then None else Some (a / b).

(** The values of the six events. *)
Record averages : Type := Averages {
  ionization_mass : option Q;
  ionization_volume : option Q;
  temperature_mass : option Q;
  temperature_volume : option Q;
  rate_volume : option Q;
  weighted_rate_volume : option Q;
}.

(** time_series.rs:62-158 [compute_time_series_system]. [world] has the particles of every rank. *)
Definition compute_time_series (world : list (list entity)) : averages :=
  let global {A} (q : list entity -> list A) (f : A -> Q) := compute_global_sum (map (fun l => map f (q l)) world) in
  let ionized_mass := global (query2 mass fraction) (fun p => fst p * snd p) in
  let total_mass := global (query2 mass fraction) (fun p => fst p) in
  let ionized_volume := global (query2 volume fraction) (fun p => fst p * snd p) in
  let total_volume := global (query2 volume fraction) (fun p => fst p) in
  let mass_weighted_temperature := global (query2 temperature mass) (fun p => fst p * snd p) in
  let total_mass' := global (query2 temperature mass) (fun p => snd p) in
  let volume_weighted_temperature := global (query2 temperature volume) (fun p => fst p * snd p) in
  let volume_weighted_rate := global (query2 rate volume) (fun p => fst p * snd p) in
  let weighted := global (query2 (both rate fraction) volume) (fun p => fst (fst p) * snd (fst p) * snd p) in
  Averages (divide ionized_mass total_mass) (divide ionized_volume total_volume)
    (divide mass_weighted_temperature total_mass') (divide volume_weighted_temperature total_volume)
    (divide volume_weighted_rate total_volume) (divide weighted total_volume).

(** sweep/mod.rs:750-781 [init_optional_component], [init_optional_chemistry_component]: only if the parameters of the output ask for the
    field do the particles get the component [PhotoionizationRate], and only then does [sweep_optional_output_system]
    (sweep/chemistry_output.rs:55-66) set it to the rate of the solver. The other components always exist (sweep/mod.rs:124-130). *)
Record cell_state : Type := CellState { c_mass : Q; c_volume : Q; c_fraction : Q; c_temperature : Q; c_rate : Q }.
Definition components (desired : bool) (c : cell_state) : entity :=
  Entity (Some (c_mass c)) (Some (c_volume c)) (Some (c_fraction c)) (Some (c_temperature c))
    (if desired then Some (c_rate c) else None).

(** time_series.rs:170-192 [num_particles_at_timestep_levels_system]: level, number and timestep of every entry. *)
Definition num_particles_at_levels (max_num_levels : nat) (max_timestep : Q) (levels : list nat) : list (nat * nat * Q) :=
  map (fun level => (level, count_cells_global levels level, to_timestep level max_timestep)) (seq 0 max_num_levels).
