(** What it means that ranks write one at a time, in order, and all get done. *)
From Coq Require Import Arith.
From Verif Require Import Barrier_Model.

(** Rank [y] has written snapshot [k] / has not started to write it. *)
Definition written (s : state) (y k : nat) : Prop :=
  k < snap s y \/ (snap s y = k /\ match ph s y with After _ | AfterWait _ => True | _ => False end).
Definition not_begun (s : state) (y k : nat) : Prop :=
  snap s y < k \/ (snap s y = k /\ match ph s y with Before _ | BeforeWait _ => True | _ => False end).

(** All [K] snapshots of all ranks are written. *)
Definition all_finished (n K : nat) (s : state) : Prop :=
  forall x, x < n -> ph s x = Finished /\ snap s x = K.
