(** Model of the output timer, [/repo/src/io/output/timer.rs], and of the parts of a step
    of the simulation that decide when a snapshot is written. *)
From Coq Require Import List Arith QArith.
Import ListNotations.
Local Open Scope Q_scope.

(** [SimulationParameters::final_time] and the two times of [OutputParameters]
    (io/output/parameters.rs 37-45), in seconds. *)
Record params : Type := Params {
  final_time : option Q;
  time_between_snapshots : Q;
  time_first_snapshot : option Q;
}.

(** [SimulationTime], [Timer] (timer.rs 14-18) and [IsFirstTime] of the sweep. *)
Record state : Type := State {
  now : Q;
  next_output_time : Q;
  snapshot_num : nat;
  is_first : bool;
}.

(** [SimulationTime(0)] (simulation_plugin/mod.rs 79), [Timer::initialize_system],
    timer.rs 21-28. *)
Definition init (p : params) : state :=
  State 0 (match time_first_snapshot p with Some t => t | None => 0 end) 0 true.

(** [stop_simulation_system], simulation_plugin/mod.rs 124-134: whether the event is
    sent. It is in the stage [Initial], before the sweep. *)
Definition stop_simulation (p : params) (s : state) : bool :=
  match final_time p with Some t => Qle_bool t (now s) | None => false end.

(** [run_sweep_system], sweep/mod.rs 694-716, as far as the time goes: the first call does
    nothing, later ones advance the time by [dt]. *)
Definition sweep (s : state) (dt : Q) : state :=
  if is_first s then State (now s) (next_output_time s) (snapshot_num s) false
  else State (now s + dt) (next_output_time s) (snapshot_num s) false.

(** [Timer::run_criterion], timer.rs 30-41. *)
Definition run_criterion (stop : bool) (s : state) : bool :=
  stop || Qle_bool (next_output_time s) (now s).

(** [Timer::dataset_write_run_criterion], timer.rs 43-58. *)
Definition dataset_write_run_criterion (is_static : bool) (stop : bool) (s : state) : bool :=
  if run_criterion stop s then negb is_static || (snapshot_num s =? 0)%nat else false.

(** [Timer::update_system], timer.rs 60-63. *)
Definition update (p : params) (s : state) : state :=
  State (now s) (next_output_time s + time_between_snapshots p) (S (snapshot_num s)) (is_first s).

(** What a step writes: the number of the snapshot, the time in it and whether fields
    that never change are part of it. *)
Record snapshot : Type := Snapshot { number : nat; time : Q; with_static : bool }.

(** One pass through the stages [Initial], [Sweep], [Output] and [Final]
    (simulation_plugin/mod.rs 35-43). The run criteria of the stage [Output] are
    evaluated before its systems run, [update_system] is the last of them that touches the
    timer. The last component tells whether [exit_system] (156-160) ends the run. *)
Definition step (p : params) (s : state) (dt : Q) : option snapshot * state * bool :=
  let stop := stop_simulation p s in
  let s := sweep s dt in
  if run_criterion stop s
  then (Some (Snapshot (snapshot_num s) (now s) (dataset_write_run_criterion true stop s)), update p s, stop)
  else (None, s, stop).

(** The steps of a run, given the time steps of the sweeps. Each entry has the time at the
    end of the step and what was written. *)
Fixpoint run (p : params) (s : state) (dts : list Q) : list (Q * option snapshot) :=
  match dts with
  | [] => []
  | dt :: dts' =>
      let '(o, s', stop) := step p s dt in
      (now s', o) :: if stop then [] else run p s' dts'
  end.
