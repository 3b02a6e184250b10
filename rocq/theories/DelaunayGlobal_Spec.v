(** Delaunay triangulations of the plane, stated with the coordinates of the points and without
    reference to how they are built. *)
From Coq Require Import List Arith QArith.
From Verif Require Import Geometry_Model Geometry_Spec Delaunay_Model Delaunay_Spec.
Import ListNotations.
Local Open Scope Q_scope.

Definition shape2 (pts : nat -> point2) (a b c : nat) : triangle2 := T2 (pts a) (pts b) (pts c).
(** In the interior or on the boundary. *)
Definition covers2 (t : triangle2) (x : point2) : Prop := strictly_inside2 t x \/ on_edge2 t x.

(** [a], [b], [c] are the corners of a triangle of [s], in this order up to rotation. *)
Definition is_triangle (s : triangulation) (a b c : nat) : Prop :=
  exists i t, In (i, t) (tetras s) /\ turned a b c (points_of t).

(** All points of the table up to [n] except for the corners are strictly outside of the circle through the corners. *)
Definition empty_circumcircle2 (pts : nat -> point2) (n a b c : nat) : Prop :=
  exists o, circumscribed2 (shape2 pts a b c) o /\
    forall v, (v < n)%nat -> v <> a -> v <> b -> v <> c -> dist2_2 o (pts a) < dist2_2 o (pts v).

(** The triangles are oriented counterclockwise, do not overlap and cover the initial triangle (the
    corners of which are the points 0, 1 and 2). *)
Record tiles2 (pts : nat -> point2) (s : triangulation) : Prop := {
  tt_corners : forall a b c, is_triangle s a b c -> (a < num_points s /\ b < num_points s /\ c < num_points s)%nat;
  tt_ccw : forall a b c, is_triangle s a b c -> 0 < area2 (shape2 pts a b c);
  tt_apart : forall i t j u a b c d e f x, In (i, t) (tetras s) -> In (j, u) (tetras s) ->
    points_of t = [a; b; c] -> points_of u = [d; e; f] ->
    strictly_inside2 (shape2 pts a b c) x -> covers2 (shape2 pts d e f) x -> i = j;
  tt_cover : forall x, covers2 (shape2 pts 0 1 2) x -> exists a b c, is_triangle s a b c /\ covers2 (shape2 pts a b c) x
}.
(** And their circumcircles are empty. *)
Definition delaunay2 (pts : nat -> point2) (s : triangulation) : Prop :=
  tiles2 pts s /\ forall a b c, is_triangle s a b c -> empty_circumcircle2 pts (num_points s) a b c.

Definition same_point (p q : point2) : Prop := x2 p == x2 q /\ y2 p == y2 q.

(** General position of the points up to [n]: no three on a line, no four on a circle, and all
    points from the fourth on strictly inside the initial triangle. *)
Record general_position (pts : nat -> point2) (n : nat) : Prop := {
  gp_inside : forall v, (3 <= v < n)%nat -> strictly_inside2 (shape2 pts 0 1 2) (pts v);
  gp_line : forall a b c, (a < n)%nat -> (b < n)%nat -> (c < n)%nat -> a <> b -> a <> c -> b <> c ->
    ~ area2 (shape2 pts a b c) == 0;
  gp_circle : forall a b c d o, (a < n)%nat -> (b < n)%nat -> (c < n)%nat -> (d < n)%nat ->
    a <> b -> a <> c -> b <> c -> d <> a -> d <> b -> d <> c ->
    circumscribed2 (shape2 pts a b c) o -> ~ dist2_2 o (pts d) == dist2_2 o (pts a)
}.
