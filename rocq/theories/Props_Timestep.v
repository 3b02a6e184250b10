(** Properties C05-C08: sub-timestepping. *)
From Coq Require Import List Arith ZArith QArith Permutation Lia.
Import ListNotations.
From Verif Require Import Timestep_Model Timestep_Spec Timestep_Proofs ActiveList_Proofs.
Local Open Scope nat_scope.

(** C05. In one run of sweeps a cell of level [l] is updated exactly in the
    iterations which are multiples of [2^(n-1-l)], hence [2^(l-lowest)] times;
    the timesteps applied to it sum up to the elapsed time of the run. Skipped
    sweeps (no active cell) never concern any cell. *)
Theorem C05_run_advances_all_cells_equally :
  forall t levels,
  lowest t < num_levels t -> num_levels t < 32 ->
  Forall (fun l => lowest t <= l < num_levels t) levels ->
  exists order sweeps,
    iter_levels_in_sweep_order t = Some order
    /\ length order = 2 ^ (num_levels t - 1 - lowest t)
    /\ Forall (fun s => lowest t <= s < num_levels t) order
    /\ performed_sweeps t levels = Some sweeps
    /\ forall l, In l levels ->
         (forall i s, nth_error order i = Some s ->
            (is_active l s = true <-> Nat.divide (2 ^ (num_levels t - 1 - l)) i))
         /\ (forall s, In s order -> is_active l s = true -> In s sweeps)
         /\ length (filter (is_active l) sweeps) = 2 ^ (l - lowest t)
         /\ (Qsum (applied_timesteps t l sweeps) == current_max_timestep t)%Q.
Proof. exact run_time_exact. Qed.
Print Assumptions C05_run_advances_all_cells_equally.

Example C05_order_example :
  iter_levels_in_sweep_order (mkTs 1 4 0 true) = Some [0; 3; 2; 3; 1; 3; 2; 3].
Proof. vm_compute. reflexivity. Qed.
(** A level without cells above an occupied finer one is still swept. *)
Example C05_hypotheses_example :
  let t := mkTs 1 4 1 true in
  (lowest t < num_levels t /\ num_levels t < 32
   /\ Forall (fun l => lowest t <= l < num_levels t) [3; 2; 3])
  /\ performed_sweeps t [3; 2; 3] = Some [1; 3; 2; 3]
  /\ performed_sweeps t [2; 2; 2] = Some [1; 2].
Proof. repeat split; try (repeat constructor; simpl; lia). Qed.

(** C06. Over any sequence of runs, with arbitrary desired timesteps, the
    simulation never panics, all levels stay in range, and the simulated time
    after [k] runs is given by the closed form: it doubles until the maximum
    timestep is reached and is a multiple of it afterwards. *)
Theorem C06_levels_in_range_and_aligned :
  forall max n num_cells desires,
  1 <= n < 32 ->
  exists es t levels,
    simulation max n num_cells desires = Some (es, t, levels)
    /\ length es = length desires
    /\ length levels = num_cells
    /\ Forall (fun l => lowest t <= l < n) levels
    /\ lowest t = n - Nat.max 1 (Nat.min (length desires) n)
    /\ (Qsum es == time_after max n (length desires))%Q.
Proof. exact simulation_levels_and_times. Qed.
Print Assumptions C06_levels_in_range_and_aligned.

Example C06_example :
  option_map (fun r => (fst (fst r), snd r))
    (simulation 8 3 2 [fun _ => RInf; fun _ => RFin (3#1); fun _ => RFin (1#2); fun i => RFin (Z.of_nat i # 1)])
  = Some ([8 * / 4; 8 * / 4; 8 * / 2; 8 * / 1]%Q, [0; 0]).
Proof. vm_compute. reflexivity. Qed.
Example C06_time_example : (time_after 8 3 3 == 8 /\ time_after 8 3 5 == 24)%Q.
Proof. split; vm_compute; reflexivity. Qed.

(** C07. The chosen step does not exceed the desired one unless the finest level
    is used, and is more than half of it unless the coarsest allowed level is
    used. *)
Theorem C07_level_choice :
  forall t d,
  (0 < d)%Q -> (0 < max_timestep t)%Q -> lowest t < num_levels t ->
  let l := get_desired_level t d in
  lowest t <= l < num_levels t
  /\ ((timestep_at_level t l <= d)%Q \/ l = num_levels t - 1)
  /\ ((d < 2 * timestep_at_level t l)%Q \/ l = lowest t).
Proof. exact level_choice. Qed.
Print Assumptions C07_level_choice.

Example C07_example :
  map (get_desired_level (mkTs 8 5 1 true)) [8; 4; 3; 2; 1; 1#10; 100]%Q = [1; 1; 2; 2; 3; 4; 1].
Proof. vm_compute. reflexivity. Qed.

(** C08. After any sequence of level changes, item changes and re-binnings, the
    enumeration at a level is (up to order) exactly the entries with at least
    that level, each with its own id and item; without re-binning after a level
    change it panics. *)
Theorem C08_active_list_exact :
  forall (T : Type) (m : list ((nat * nat) * T)) mx init a ops a',
  al_new m mx init = Some a -> al_run a ops = Some a' ->
  exists items,
    length items = length m
    /\ (forall i, i < length m -> nth_error items i = al_lookup m (al_rank a, i))
    /\ let r := fold_left ref_step ops (map (fun t => (t, init)) items, true) in
       forall lvl, lvl <= mx ->
         if snd r then
           exists res, enumerate_active a' lvl = Some res
             /\ Permutation res (ref_active (al_rank a) 0 lvl (fst r))
         else enumerate_active a' lvl = None.
Proof. exact @active_list_exact. Qed.
Print Assumptions C08_active_list_exact.

(** C08. The reference enumeration contains exactly the entries of at least the
    level, and no id twice. *)
Theorem C08_reference_meaning :
  forall (T : Type) rank lvl (l : list (T * nat)) i,
  NoDup (map fst (ref_active rank i lvl l))
  /\ forall id t, In (id, t) (ref_active rank i lvl l)
       <-> exists k lv, id = (rank, i + k) /\ nth_error l k = Some (t, lv) /\ lvl <= lv.
Proof.
  exact (fun T rank lvl l i => conj (ref_active_NoDup rank lvl l i) (ref_active_spec rank lvl l i)).
Qed.
Print Assumptions C08_reference_meaning.

(** C08. Re-binning panics exactly when some level is out of range, so with C06
    it never does. *)
Theorem C08_rebinning_total :
  forall (T : Type) (a : active_list T),
  (exists a', update_bins a = Some a') <-> Forall (fun l => l < al_max a) (al_levels a).
Proof. exact @update_bins_total. Qed.
Print Assumptions C08_rebinning_total.

Example C08_example :
  match al_new [((7,1), 11); ((7,0), 10); ((7,2), 12)] 3 2 with
  | None => None
  | Some a =>
      match al_run a [OpSetLevel 0 0; OpSetLevel 2 1; OpSetItem 1 S; OpUpdateBins] with
      | None => None
      | Some a' => enumerate_active a' 1
      end
  end = Some [((7,2), 12); ((7,1), 12)].
Proof. reflexivity. Qed.
