(** C84: the measurements of the run time. *)
From Coq Require Import String QArith ZArith Bool Arith List.
From Verif Require Import Performance_Model Performance_Spec Performance_Proofs.
Import ListNotations.
Local Open Scope nat_scope.

(** Both schedules can be made, … *)
Theorem C84_schedules : (exists sl, add_timers get_startup_stages = Some sl) /\ (exists ml, add_timers get_stages = Some ml).
Proof. split; eexists; reflexivity. Qed.
Print Assumptions C84_schedules.

(** … for any list of stages exactly if it is shorter than the list of timers: no stage is twice in the schedule (adding a stage twice
    panics), the stages keep their order and each has a timer stage directly before and directly after it; … *)
Theorem C84_labels : forall stages, NoDup stages -> (forall s, In s stages -> is_timer_stage s = false) ->
  match add_timers stages with
  | None => length all_timers <= length stages
  | Some l => NoDup l /\ filter (fun s => negb (is_timer_stage s)) l = stages /\
      forall s, In s stages -> exists l1 t1 t2 l2, l = l1 ++ t1 :: s :: t2 :: l2 /\ is_timer_stage t1 = true /\ is_timer_stage t2 = true
  end.
Proof. exact labels_ok. Qed.
Print Assumptions C84_labels.
Example C84_example_labels : NoDup get_startup_stages /\ (forall s, In s get_startup_stages -> is_timer_stage s = false).
Proof. split; [repeat constructor; cbn; intuition discriminate|]. intros s I. cbn in I. repeat (destruct I as [<-|I]; [reflexivity|]). destruct I. Qed.

(** … in the schedules every stage comes after those whose results it uses; … *)
Theorem C84_order : forall sl ml, add_timers get_startup_stages = Some sl -> add_timers get_stages = Some ml ->
  (forall a b, In (a, b) startup_needs -> before sl (Startup a) (Startup b)) /\ (forall a b, In (a, b) main_needs -> before ml (Main a) (Main b)).
Proof. exact order_ok. Qed.
Print Assumptions C84_order.

(** … and in every run, whatever the order of the systems within the stages and whatever the systems of the program measure: the timers
    of the stages never panic and do not disturb other measurements, every start-up stage is measured once, every other stage once per
    step. *)
Theorem C84_stages : forall sl ml, add_timers get_startup_stages = Some sl -> add_timers get_stages = Some ml ->
  forall n trace, run sl ml (S n) trace -> forall pu, perform_all (filter (fun e => own (snd e)) trace) empty = Some pu ->
  exists p, perform_all trace empty = Some p /\
    (forall s, In s get_startup_stages -> exists t, results p (OfLabel s) = Some (RunTimes [t])) /\
    (forall s, In s get_stages -> exists times, results p (OfLabel s) = Some (RunTimes times) /\ length times = S n) /\
    (forall l, timers p (OfLabel l) = None) /\
    (forall s, results p (Own s) = results pu (Own s) /\ timers p (Own s) = timers pu (Own s)).
Proof. exact stage_timers. Qed.
Print Assumptions C84_stages.

(** No time is negative if the clock does not go backwards. *)
Theorem C84_times : forall trace p, clock trace -> perform_all trace empty = Some p -> forall n times,
  results p n = Some (RunTimes times) -> Forall (fun t => (0 <= t)%Q) times.
Proof. exact times_nonneg. Qed.
Print Assumptions C84_times.

(** What is written for a measured time is the number of calls, which is never zero, their total and their average; for the total run
    time it is the time since the start while it is still running. *)
Theorem C84_statistics : forall trace p, perform_all trace empty = Some p -> forall now n total average num_calls,
  as_output p now n = Some (Statistics total average num_calls) ->
  exists l a, average = Some a /\ num_calls = length l /\ 0 < num_calls /\ (total == fold_right Qplus 0 l)%Q /\ (a * inject_Z (Z.of_nat num_calls) == total)%Q /\
    (results p n = Some (RunTimes l) \/ n = TOTAL /\ exists t, timers p n = Some t /\ l = [now - t]%Q).
Proof. exact statistics_ok. Qed.
Print Assumptions C84_statistics.

(** The timer of the whole run is started first: every file that is written contains the total run time. *)
Theorem C84_total : forall t0 trace p, perform_all ((t0, Start TOTAL) :: trace) empty = Some p -> forall now, as_output p now TOTAL <> None.
Proof. exact total_written. Qed.
Print Assumptions C84_total.

(** Two steps in which the chemistry is measured during the sweep. *)
Definition mine (l : label) : list op :=
  match l with
  | Startup SReadInput => [Record (Own "num_ranks") 4]
  | Main Sweep => [Start (Own "chemistry"); Stop (Own "chemistry")]
  | _ => []
  end.
Definition trace (sl ml : list label) : list (Q * op) :=
  let pass labels := map (fun o => (0%Q, o)) (flat_map (fun l => timer_systems labels l ++ mine l) labels) in
  pass sl ++ pass ml ++ pass ml ++ [].
Example C84_example : forall sl ml, add_timers get_startup_stages = Some sl -> add_timers get_stages = Some ml ->
  run sl ml 2 (trace sl ml) /\ exists pu, perform_all (filter (fun e => own (snd e)) (trace sl ml)) empty = Some pu.
Proof.
  intros sl ml Hs Hm. split.
  - assert (O : forall l o, In o (mine l) -> own o = true).
    { intros [k|s|s] o; [intros [] | |]; destruct s; cbn; try contradiction; intros H; repeat (destruct H as [<-|H]; [reflexivity|]); destruct H. }
    assert (T : forall l, is_timer_stage l = true -> mine l = []).
    { intros [k|s|s]; [reflexivity | |]; destruct s; intros H; try reflexivity; discriminate H. }
    eexists. eexists. split; [apply (canonical_pass sl mine sl O T)|]. split; [|reflexivity].
    constructor; [apply (canonical_pass ml mine ml O T)|]. constructor; [apply (canonical_pass ml mine ml O T)|]. constructor.
  - injection Hs as <-. injection Hm as <-. eexists. vm_compute. reflexivity.
Qed.
Example C84_example_clock : clock [(1%Q, Start (Own "chemistry")); (3%Q, Stop (Own "chemistry"))] /\
  exists p, perform_all [(1%Q, Start (Own "chemistry")); (3%Q, Stop (Own "chemistry"))] empty = Some p /\
    option_map (fun v => match v with Statistics t _ n => (Qred t, n) | Plain _ => (0%Q, 0) end) (as_output p 4 (Own "chemistry")) = Some (2%Q, 1).
Proof.
  split; [repeat constructor; discriminate|]. eexists. split; reflexivity.
Qed.

(** A number can be recorded exactly if it is in the range of 32-bit integers. *)
Theorem C84_numbers : forall n val t p, (exists p', perform (Record n val) t p = Some p') <-> (- 2 ^ 31 <= val < 2 ^ 31)%Z.
Proof. exact record_ok. Qed.
Print Assumptions C84_numbers.
(** Refuted: that the number of particles can be recorded however many there are. With 1291^3 particles the program panics while it
    reads the input. *)
Theorem C84_number_of_particles_refuted : exists num, (num = 1291 ^ 3)%Z /\ forall t p, perform (Record (Own "num_particles") num) t p = None.
Proof. exists (1291 ^ 3)%Z. split; reflexivity. Qed.
Print Assumptions C84_number_of_particles_refuted.
