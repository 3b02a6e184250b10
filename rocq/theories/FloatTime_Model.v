(** Model of the time of the simulation, of its end and of the times of the snapshots with the rounding of [f64]. Times are
    numbers of type [f64] in one unit; [Timer_Model] is the same with exact numbers. *)
From Coq Require Import List.
From Flocq Require Import Core.Core IEEE754.BinarySingleNaN.
From Verif Require Import Float_Model.
Import ListNotations.

(** [x >= y] of [f64], as derived for [Time]: false if either is NaN. *)
Definition at_least (x y : f64) : bool :=
  match cmp x y with Some Gt | Some Eq => true | _ => false end.

(** [**time += time_elapsed] in [run_sweep_system], sweep/mod.rs 717. *)
Definition advance (now elapsed : f64) : f64 := add now elapsed.

(** The time after sweeps that took the times [elapsed]; it begins with [SimulationTime(units::Time::seconds(0.00))],
    simulation_plugin/mod.rs 80. The call that does nothing (sweep/mod.rs 711-714) is left out. *)
Definition time_after (elapsed : list f64) : f64 := fold_left advance elapsed zero.

(** [stop_simulation_system], simulation_plugin/mod.rs 124-134: whether the event is sent. *)
Definition stops (final_time : option f64) (now : f64) : bool :=
  match final_time with Some t => at_least now t | None => false end.

(** [next_output_time] of the timer after [n] snapshots, io/output/timer.rs 21-28 and 60-63. *)
Fixpoint output_time (first : option f64) (between : f64) (n : nat) : f64 :=
  match n with
  | O => match first with Some t => t | None => zero end
  | S k => add (output_time first between k) between
  end.

(** [Timer::run_criterion], io/output/timer.rs 30-41, without the end of the run: whether snapshot number [n] is written. *)
Definition due (first : option f64) (between : f64) (n : nat) (now : f64) : bool := at_least now (output_time first between n).
