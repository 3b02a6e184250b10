(** Specification of a space-filling curve on the integer grid, independent of the
    way keys are computed. *)
From Coq Require Import List NArith.
Import ListNotations.
Local Open Scope N_scope.

(** Taxicab distances. *)
Definition dist1 (a b : N) : N := (a - b) + (b - a).
Definition dist_2d (p q : N * N) : N := dist1 (fst p) (fst q) + dist1 (snd p) (snd q).
Definition dist_3d (p q : N * N * N) : N := dist_2d (fst p) (fst q) + dist1 (snd p) (snd q).

(** The grids with [side] points per dimension. *)
Definition in_grid_2d (side : N) (p : N * N) : Prop := fst p < side /\ snd p < side.
Definition in_grid_3d (side : N) (p : N * N * N) : Prop := in_grid_2d side (fst p) /\ snd p < side.

(** [key] maps the points one-to-one onto the numbers below [count]. *)
Definition bijection {P : Type} (point : P -> Prop) (count : N) (key : P -> N) : Prop :=
  (forall p, point p -> key p < count)
  /\ (forall p q, point p -> point q -> key p = key q -> p = q)
  /\ (forall k, k < count -> exists p, point p /\ key p = k).

(** Points with consecutive keys have distance one. *)
Definition consecutive_adjacent {P : Type} (point : P -> Prop) (dist : P -> P -> N) (key : P -> N)
  : Prop :=
  forall p q, point p -> point q -> key q = key p + 1 -> dist p q = 1.

(** A set of points is connected: any two of them are joined by steps of length
    one through points of the set. *)
Inductive joined {P : Type} (S : P -> Prop) (dist : P -> P -> N) : P -> P -> Prop :=
| joined_refl : forall p, S p -> joined S dist p p
| joined_step : forall p q r, S p -> dist p q = 1 -> joined S dist q r -> joined S dist p r.
Definition connected {P : Type} (S : P -> Prop) (dist : P -> P -> N) : Prop :=
  forall p q, S p -> S q -> joined S dist p q.

(** The points whose keys lie in a contiguous interval. *)
Definition key_interval {P : Type} (point : P -> Prop) (key : P -> N) (lo hi : N) (p : P) : Prop :=
  point p /\ lo <= key p < hi.
