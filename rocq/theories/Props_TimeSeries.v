(** C83: the averages over all cells that are written after every step. *)
From Coq Require Import List QArith Arith Permutation Lia.
From Verif Require Import Timestep_Model TimeSeries_Model TimeSeries_Spec TimeSeries_Proofs.
Import ListNotations.
Local Open Scope Q_scope.

(** They do not depend on the number of ranks, on which rank has which particle or on the order of the particles. *)
Theorem C83_distribution : forall world world', Permutation (concat world) (concat world') ->
  same_averages (compute_time_series world) (compute_time_series world').
Proof. exact distribution. Qed.
Print Assumptions C83_distribution.

(** If the field of the photoionization rate is written, all six are the means over all cells of all ranks that their names say. *)
Theorem C83_means : forall cells, concat cells <> [] -> (forall c, In c (concat cells) -> 0 < c_mass c /\ 0 < c_volume c) ->
  let a := compute_time_series (map (map (components true)) cells) in
  some_mean c_mass c_fraction (concat cells) (ionization_mass a) /\
  some_mean c_volume c_fraction (concat cells) (ionization_volume a) /\
  some_mean c_mass c_temperature (concat cells) (temperature_mass a) /\
  some_mean c_volume c_temperature (concat cells) (temperature_volume a) /\
  some_mean c_volume c_rate (concat cells) (rate_volume a) /\
  some_mean c_volume (fun c => c_fraction c * c_rate c) (concat cells) (weighted_rate_volume a).
Proof. exact means. Qed.
Print Assumptions C83_means.

(** The four others are in any case. *)
Theorem C83_other_means : forall cells desired, concat cells <> [] -> (forall c, In c (concat cells) -> 0 < c_mass c /\ 0 < c_volume c) ->
  let a := compute_time_series (map (map (components desired)) cells) in
  some_mean c_mass c_fraction (concat cells) (ionization_mass a) /\
  some_mean c_volume c_fraction (concat cells) (ionization_volume a) /\
  some_mean c_mass c_temperature (concat cells) (temperature_mass a) /\
  some_mean c_volume c_temperature (concat cells) (temperature_volume a).
Proof. exact other_means. Qed.
Print Assumptions C83_other_means.

(** Such a mean is between any two bounds of the values; in particular a mean of ionized fractions is between 0 and 1. *)
Theorem C83_between : forall (w x : cell_state -> Q) l v lo hi, l <> [] -> (forall a, In a l -> 0 < w a) ->
  (forall a, In a l -> lo <= x a /\ x a <= hi) -> some_mean w x l v -> exists q, v = Some q /\ lo <= q /\ q <= hi.
Proof. exact (@mean_between cell_state). Qed.
Print Assumptions C83_between.

(** Three cells on two ranks. *)
Definition three : list (list cell_state) := [[CellState 1 2 (1 # 2) 100 3; CellState 3 2 1 200 5]; []; [CellState 4 4 0 1000 1]].
Example C83_example : concat three <> [] /\ (forall c, In c (concat three) -> 0 < c_mass c /\ 0 < c_volume c).
Proof. split; [discriminate|]. intros c H. cbn in H. destruct H as [<- | [<- | [<- | []]]]; split; reflexivity. Qed.
Example C83_example_values : let a := compute_time_series (map (map (components true)) three) in
  (option_map Qred (ionization_mass a), option_map Qred (temperature_volume a), option_map Qred (rate_volume a)) =
  (Some (7 # 16), Some (575 # 1), Some (5 # 2)).
Proof. vm_compute. reflexivity. Qed.

(** Refuted: that the averages of the photoionization rate are means over all cells whatever fields are written. If the field is not
    among the fields of the output the average is written as zero. *)
Theorem C83_rates_refuted : exists cells, concat cells <> [] /\
  (forall c, In c (concat cells) -> 0 < c_mass c /\ 0 < c_volume c /\ 0 < c_fraction c /\ 1 <= c_rate c) /\
  let a := compute_time_series (map (map (components false)) cells) in
  rate_volume a = Some 0 /\ ~ some_mean c_volume c_rate (concat cells) (rate_volume a).
Proof.
  exists [[CellState 1 1 (1 # 2) 100 3]]. split; [discriminate|]. split.
  - intros c [<- | []]. repeat split; discriminate.
  - split; [vm_compute; reflexivity|]. intros (q & E & M). vm_compute in E. injection E as <-. unfold is_mean in M. vm_compute in M. discriminate.
Qed.
Print Assumptions C83_rates_refuted.

(** The entries of the time series of the timestep levels: one for every level, with its timestep, and with the number of particles at
    this or at a higher level. *)
Theorem C83_levels : forall n dt levels, (forall k, In k levels -> k < n)%nat ->
  map (fun e => fst (fst e)) (num_particles_at_levels n dt levels) = seq 0 n /\
  forall level num t, In (level, num, t) (num_particles_at_levels n dt levels) ->
    (level < n)%nat /\ t == dt / inject_Z (2 ^ Z.of_nat level) /\ num = length (filter (fun k => level <=? k)%nat levels).
Proof. exact levels_cumulative. Qed.
Print Assumptions C83_levels.
Example C83_example_levels : forall k, In k [0; 2; 2; 1]%nat -> (k < 3)%nat.
Proof. intros k H. cbn in H. lia. Qed.

(** Refuted: that "num_particles_at_timestep_levels" is the number of particles at the level. *)
Theorem C83_number_at_level_refuted : exists n dt levels level num t, (forall k, In k levels -> k < n)%nat /\
  In (level, num, t) (num_particles_at_levels n dt levels) /\ num <> count_occ Nat.eq_dec levels level.
Proof.
  exists 3%nat, 1, [0; 2; 2; 1]%nat, 1%nat, 3%nat, (to_timestep 1 1). split; [exact C83_example_levels|]. split; [right; left; reflexivity | discriminate].
Qed.
Print Assumptions C83_number_at_level_refuted.
