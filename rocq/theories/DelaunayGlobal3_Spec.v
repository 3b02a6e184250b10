(** Delaunay triangulations of space, stated with the coordinates of the points and without
    reference to how they are built. *)
From Coq Require Import List Arith QArith Permutation.
From Verif Require Import Geometry_Model Geometry_Spec Delaunay_Model.
Import ListNotations.
Local Open Scope Q_scope.

Definition shape3 (pts : nat -> point3) (a b c d : nat) : tetrahedron := TT (pts a) (pts b) (pts c) (pts d).

(** [a], [b], [c], [d] are the corners of a tetrahedron of [s], in any order. *)
Definition is_tetra (s : triangulation) (a b c d : nat) : Prop :=
  exists i t, In (i, t) (tetras s) /\ Permutation [a; b; c; d] (points_of t).

(** All points of the table up to [n] except for the corners are strictly outside of the sphere through the corners. *)
Definition empty_circumsphere3 (pts : nat -> point3) (n a b c d : nat) : Prop :=
  exists o, circumscribed3 (shape3 pts a b c d) o /\
    forall v, (v < n)%nat -> v <> a -> v <> b -> v <> c -> v <> d -> dist2_3 o (pts a) < dist2_3 o (pts v).

(** The tetrahedra are positively oriented, do not overlap and cover the initial tetrahedron (the
    corners of which are the points 0, 1, 2 and 3). *)
Record tiles3 (pts : nat -> point3) (s : triangulation) : Prop := {
  ts_corners : forall i t, In (i, t) (tetras s) -> exists a b c d, points_of t = [a; b; c; d] /\
    (a < num_points s /\ b < num_points s /\ c < num_points s /\ d < num_points s)%nat /\ 0 < volume6 (shape3 pts a b c d);
  ts_apart : forall i t j u a b c d e f g h x, In (i, t) (tetras s) -> In (j, u) (tetras s) ->
    points_of t = [a; b; c; d] -> points_of u = [e; f; g; h] ->
    strictly_inside3 (shape3 pts a b c d) x -> in_tetra (shape3 pts e f g h) x -> i = j;
  ts_cover : forall x, in_tetra (shape3 pts 0 1 2 3) x ->
    exists a b c d, is_tetra s a b c d /\ in_tetra (shape3 pts a b c d) x
}.
(** And their circumspheres are empty. *)
Definition delaunay3 (pts : nat -> point3) (s : triangulation) : Prop :=
  tiles3 pts s /\ forall a b c d, is_tetra s a b c d -> empty_circumsphere3 pts (num_points s) a b c d.

(** General position of the points up to [n]: no four on a plane, no five on a sphere, and all
    points from the fifth on strictly inside the initial tetrahedron. *)
Record general_position3 (pts : nat -> point3) (n : nat) : Prop := {
  gp3_inside : forall v, (4 <= v < n)%nat -> strictly_inside3 (shape3 pts 0 1 2 3) (pts v);
  gp3_plane : forall a b c d, (a < n)%nat -> (b < n)%nat -> (c < n)%nat -> (d < n)%nat -> NoDup [a; b; c; d] ->
    ~ volume6 (shape3 pts a b c d) == 0;
  gp3_sphere : forall a b c d e o, (a < n)%nat -> (b < n)%nat -> (c < n)%nat -> (d < n)%nat -> (e < n)%nat ->
    NoDup [a; b; c; d; e] -> circumscribed3 (shape3 pts a b c d) o -> ~ dist2_3 o (pts e) == dist2_3 o (pts a)
}.
