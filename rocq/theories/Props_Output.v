(** Property C04: snapshots are written by one rank at a time. *)
From Coq Require Import List Arith Lia.
Import ListNotations.
From Verif Require Import Fair Barrier_Model Barrier_Spec Barrier_Proofs.

(** C04. With the barrier loops around the snapshot output, for every number of
    ranks and snapshots and every interleaving: at most one rank writes; while
    rank [x] writes snapshot [k] all lower ranks have written it and no higher
    rank has started it; every fair schedule ends with everything written. *)
Theorem C04_output_serialized :
  forall n K : nat,
  let pre := init_wait_loop n in
  let post := finish_wait_loop n in
  (forall l x y, x < n -> y < n ->
     ph (reach n K pre post l) x = Writing -> ph (reach n K pre post l) y = Writing -> x = y)
  /\ (forall l x y, x < n -> y < n -> ph (reach n K pre post l) x = Writing ->
        (y < x -> written (reach n K pre post l) y (snap (reach n K pre post l) x))
        /\ (x < y -> not_begun (reach n K pre post l) y (snap (reach n K pre post l) x)))
  /\ (forall sched, fair (fun x => x < n) sched ->
        exists k, all_finished n K (exec (step n K pre post) (init K pre) sched k)).
Proof. exact output_serialized. Qed.
Print Assumptions C04_output_serialized.

(** The same for the barriers around the debug output of the ranks. *)
Theorem C04_debug_output_serialized :
  forall n K : nat,
  let pre := start_barrier_loop n in
  let post := end_barrier_loop n in
  (forall l x y, x < n -> y < n ->
     ph (reach n K pre post l) x = Writing -> ph (reach n K pre post l) y = Writing -> x = y)
  /\ (forall l x y, x < n -> y < n -> ph (reach n K pre post l) x = Writing ->
        (y < x -> written (reach n K pre post l) y (snap (reach n K pre post l) x))
        /\ (x < y -> not_begun (reach n K pre post l) y (snap (reach n K pre post l) x)))
  /\ (forall sched, fair (fun x => x < n) sched ->
        exists k, all_finished n K (exec (step n K pre post) (init K pre) sched k)).
Proof. exact debug_serialized. Qed.
Print Assumptions C04_debug_output_serialized.

(** Three ranks, two snapshots: round-robin scheduling is fair and ends; on the
    way rank 1 writes while rank 0, which has written, waits for it. *)
Definition round_robin (k : nat) : nat := Nat.modulo k 3.
Example C04_round_robin_is_fair : fair (fun x => x < 3) round_robin.
Proof.
  intros o Ho n. exists (3 * n + o). split; [lia|]. unfold round_robin.
  replace (3 * n + o) with (o + n * 3) by lia. rewrite Nat.mod_add by lia.
  now apply Nat.mod_small.
Qed.
Example C04_example :
  let s k := exec (step 3 2 (init_wait_loop 3) (finish_wait_loop 3))
               (init 2 (init_wait_loop 3)) round_robin k in
  map (ph (s 28)) [0; 1; 2] = [AfterWait [true]; Writing; BeforeWait [false]]
  /\ map (ph (s 150)) [0; 1; 2] = [Finished; Finished; Finished]
  /\ map (snap (s 150)) [0; 1; 2] = [2; 2; 2].
Proof. vm_compute. repeat split. Qed.
