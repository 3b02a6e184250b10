(** Model of the serialized snapshot output: every rank passes some barriers,
    writes, and passes the remaining barriers.
    [/repo/src/io/output/mod.rs] 371-397 (without the [parallel-hdf5] feature) and
    [/repo/src/mpi_log.rs] [start_barrier]/[end_barrier] 63-81. *)
From Coq Require Import List Arith Bool.
Import ListNotations.

(** The loops: one entry per iteration, [true] when the iteration calls
    [world.barrier()]. *)

(** [init_wait_for_other_ranks_system], output/mod.rs 371-384. *)
Definition init_wait_loop (size rank : nat) : list bool :=
  map (fun i => i <? rank) (seq 0 size).
(** [finish_wait_for_other_ranks_system], output/mod.rs 387-397. *)
Definition finish_wait_loop (size rank : nat) : list bool :=
  map (fun i => rank <=? i) (seq 0 size).
(** [start_barrier], mpi_log.rs 64-70. *)
Definition start_barrier_loop (size rank : nat) : list bool := repeat true rank.
(** [end_barrier], mpi_log.rs 73-80. *)
Definition end_barrier_loop (size rank : nat) : list bool :=
  map (fun _ => true) (seq rank (size - rank)).

Section Barrier.
Variable n_ranks : nat.
(** Number of snapshots written one after the other. *)
Variable n_snap : nat.
(** The barrier loops before and after writing, per rank. *)
Variable pre post : nat -> list bool.

(** Where a rank is: in the first loop with remaining iterations, inside a barrier
    of it, writing, in the second loop, inside a barrier of it, or done with all
    snapshots. *)
Inductive phase :=
| Before (todo : list bool)
| BeforeWait (todo : list bool)
| Writing
| After (todo : list bool)
| AfterWait (todo : list bool)
| Finished.

(** [snap x]: snapshots finished by rank [x]; [entered x]/[left x]: number of
    barriers entered/left (MPI library state). *)
Record state := mkState {
  ph : nat -> phase;
  snap : nat -> nat;
  entered : nat -> nat;
  left : nat -> nat }.

Definition upd {B} (f : nat -> B) (k : nat) (v : B) : nat -> B :=
  fun q => if q =? k then v else f q.

Definition start (x k : nat) : phase :=
  if k <? n_snap then Before (pre x) else Finished.

Definition init : state :=
  mkState (fun x => start x 0) (fun _ => 0) (fun _ => 0) (fun _ => 0).

Definition set_phase (s : state) (x : nat) (p : phase) : state :=
  mkState (upd (ph s) x p) (snap s) (entered s) (left s).

Definition enter (s : state) (x : nat) (p : phase) : state :=
  mkState (upd (ph s) x p) (snap s) (upd (entered s) x (S (entered s x))) (left s).

(** A rank leaves its current barrier only when every rank has entered it. *)
Definition try_leave (s : state) (x : nat) (p : phase) : state :=
  if forallb (fun y => entered s x <=? entered s y) (seq 0 n_ranks)
  then mkState (upd (ph s) x p) (snap s) (entered s) (upd (left s) x (S (left s x)))
  else s.

(** One step of rank [x]. The data written between the loops
    ([open_file_system], the write systems, [close_file_system]; plugin.rs
    104-152) is the phase [Writing]. *)
Definition step (s : state) (x : nat) : state :=
  if x <? n_ranks then
    match ph s x with
    | Before (true :: t) => enter s x (BeforeWait t)
    | Before (false :: t) => set_phase s x (Before t)
    | Before [] => set_phase s x Writing
    | BeforeWait t => try_leave s x (Before t)
    | Writing => set_phase s x (After (post x))
    | After (true :: t) => enter s x (AfterWait t)
    | After (false :: t) => set_phase s x (After t)
    | After [] => mkState (upd (ph s) x (start x (S (snap s x))))
                          (upd (snap s) x (S (snap s x))) (entered s) (left s)
    | AfterWait t => try_leave s x (After t)
    | Finished => s
    end
  else s.

Definition reach (l : list nat) : state := fold_left step l init.

End Barrier.
