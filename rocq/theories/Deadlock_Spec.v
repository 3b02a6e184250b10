(** What the check for deadlocks is for. *)
From Coq Require Import List Arith.
From Verif Require Import Sweep_Model Sweep_Spec Deadlock_Model.
Import ListNotations.
Local Open Scope nat_scope.

(** Every face towards a cell of another rank is a face of that cell as well. *)
Definition two_sided (G : config) : Prop :=
  forall c f p, In c (cells G) -> In f (faces G c) -> f_nb f = Remote p ->
    exists f', In f' (faces G p) /\ f_nb f' = Remote c.

(** Rank [r] takes cell [p] of another rank to be swept at level [cur], as a neighbour of its cell [c] which is swept. *)
Definition depends (G : config) (cur r : nat) (c p : pid) : Prop :=
  In c (cells G) /\ rank_of c = r /\ cur <= lev G c /\ rank_of p <> r /\
  (exists f, In f (faces G c) /\ f_nb f = Remote p) /\ (exists l, halo G r p = Some l /\ cur <= l).

(** The rank of [p] sees it the same way, and each rank knows the level of the other's cell. *)
Definition agreed (G : config) (cur r : nat) (c p : pid) : Prop :=
  depends G cur (rank_of p) p c /\ halo G r p = Some (lev G p) /\ halo G (rank_of p) c = Some (lev G c).

Definition panicked (x : place) : Prop := x = NoTask \/ x = Unknown \/ x = Differ.
