(** Property C44: snapshots at regular intervals. *)
From Coq Require Import List Arith QArith.
Import ListNotations.
From Verif Require Import Timer_Model Timer_Spec Timer_Proofs.
Local Open Scope Q_scope.

(** C44. Whatever the steps, the snapshots are numbered 0, 1, 2, ... without gap or
    repetition, the time in a snapshot is the time of the step that wrote it, and the
    fields that never change are part of the first one only. *)
Theorem C44_numbers : forall p dts,
  map number (written (run p (init p) dts)) = seq 0 (length (written (run p (init p) dts)))
  /\ (forall x, In x (written (run p (init p) dts)) -> with_static x = (number x =? 0)%nat)
  /\ forall t x, In (t, Some x) (run p (init p) dts) -> time x = t.
Proof. exact (fun p dts => conj (run_numbers p dts (init p)) (conj (run_static p dts (init p)) (run_time p dts (init p)))). Qed.
Print Assumptions C44_numbers.

(** If no step is longer than the interval, the k-th snapshot is written at the first
    step whose time reaches the k-th output time, except for the last one of the run. *)
Theorem C44_regular : forall p, 0 < time_between_snapshots p -> 0 <= first_of p ->
  forall dts, Forall (fun dt => 0 <= dt /\ dt <= time_between_snapshots p) dts ->
  forall i t x, nth_error (run p (init p) dts) i = Some (t, Some x) ->
  ~ final_reached p (run p (init p) dts) i ->
  first_reaching (run p (init p) dts) (due (first_of p) (time_between_snapshots p) (number x)) i.
Proof. exact regular_output_trace. Qed.
Print Assumptions C44_regular.

(** No output time is skipped: at the end of every step all snapshots that are due have
    been written. *)
Theorem C44_none_skipped : forall p, 0 < time_between_snapshots p -> 0 <= first_of p ->
  forall dts, Forall (fun dt => 0 <= dt /\ dt <= time_between_snapshots p) dts ->
  forall i t o, nth_error (run p (init p) dts) i = Some (t, o) ->
  forall k, due (first_of p) (time_between_snapshots p) k <= t ->
  exists j u x, (j <= i)%nat /\ nth_error (run p (init p) dts) j = Some (u, Some x) /\ number x = k.
Proof. exact all_written. Qed.
Print Assumptions C44_none_skipped.

(** The step that begins at or after the final time is the last one, and always writes. *)
Theorem C44_last : forall p dts i x, nth_error (run p (init p) dts) i = Some x ->
  final_reached p (run p (init p) dts) i ->
  length (run p (init p) dts) = S i /\ exists t y, x = (t, Some y).
Proof. exact last_step_trace. Qed.
Print Assumptions C44_last.

Definition ex_params : params := Params (Some 4) (3 # 2) (Some 1).
Definition ex_dts : list Q := [1; 1; 1; 1; 1; 1; 1; 1].
Example C44_example :
  0 < time_between_snapshots ex_params /\ 0 <= first_of ex_params
  /\ Forall (fun dt => 0 <= dt /\ dt <= time_between_snapshots ex_params) ex_dts
  /\ map (fun x => (Qred (fst x), option_map number (snd x))) (run ex_params (init ex_params) ex_dts)
     = [(0, None); (1, Some 0%nat); (2, None); (3, Some 1%nat); (4, Some 2%nat); (5, Some 3%nat)].
Proof.
  split; [reflexivity|]. split; [discriminate|]. split; [|vm_compute; reflexivity].
  unfold ex_dts. repeat (constructor; [split; discriminate|]). constructor.
Qed.

(** With a step longer than the interval the timer lags behind: snapshot 2 is due at time
    2, which the second step reaches, but only the third step writes it. *)
Theorem C44_long_step_refuted : exists p dts i t x,
  0 < time_between_snapshots p /\ 0 <= first_of p /\ Forall (fun dt => 0 <= dt) dts
  /\ nth_error (run p (init p) dts) i = Some (t, Some x)
  /\ ~ final_reached p (run p (init p) dts) i
  /\ ~ first_reaching (run p (init p) dts) (due (first_of p) (time_between_snapshots p) (number x)) i.
Proof.
  exists (Params None 1 None), [1; 3; 1], 2%nat. eexists _, _.
  split; [reflexivity|]. split; [discriminate|]. split; [repeat (constructor; [discriminate|]); constructor|].
  split; [vm_compute; reflexivity|]. split; [intros (f & H & _); discriminate H|].
  intros [_ H]. specialize (H 1%nat _ (le_n 2) eq_refl). vm_compute in H. discriminate H.
Qed.
Print Assumptions C44_long_step_refuted.

(** The last snapshot need not be due, and it is written one sweep after the step that
    reached the final time. *)
Theorem C44_last_refuted : exists p dts i t x f,
  0 < time_between_snapshots p /\ 0 <= first_of p
  /\ Forall (fun dt => 0 <= dt /\ dt <= time_between_snapshots p) dts
  /\ nth_error (run p (init p) dts) (S i) = Some (t, Some x)
  /\ length (run p (init p) dts) = S (S i)
  /\ t < due (first_of p) (time_between_snapshots p) (number x)
  /\ final_time p = Some f /\ first_reaching (run p (init p) dts) f i /\ f < t.
Proof.
  exists (Params (Some 1) 10 None), [1; 1; 1; 1], 1%nat. eexists _, _, 1.
  split; [reflexivity|]. split; [discriminate|]. split; [repeat (constructor; [split; discriminate|]); constructor|].
  split; [vm_compute; reflexivity|]. split; [vm_compute; reflexivity|]. split; [reflexivity|]. split; [reflexivity|].
  split; [|reflexivity]. split.
  - eexists. split; [vm_compute; reflexivity|]. discriminate.
  - intros j x Hj H. destruct j as [|j]; [|exfalso; inversion Hj as [|? A]; inversion A].
    vm_compute in H. injection H as <-. reflexivity.
Qed.
Print Assumptions C44_last_refuted.
