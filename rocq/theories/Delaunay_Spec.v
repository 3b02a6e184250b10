(** What it means for a triangulation to be topologically sound, stated without
    reference to how it is built. *)
From Coq Require Import List Arith Permutation.
From Verif Require Geometry_Model.
From Verif Require Import Delaunay_Model.
Import ListNotations.

(** Tetra [i] has face [f], opposite to its corner [q]. *)
Definition has_side (s : triangulation) (i q f : nat) : Prop :=
  exists t fi, In (i, t) (tetras s) /\ In (q, fi) t /\ face fi = f.

(** [d] is the dimension. *)
Record consistent (d : nat) (s : triangulation) : Prop := {
  (* ids are not used twice *)
  cs_tetra_ids : NoDup (map fst (tetras s));
  cs_face_ids : NoDup (map fst (faces s));
  (* every tetra has d+1 different corners, all of them existing points *)
  cs_corners : forall i t, In (i, t) (tetras s) ->
    length t = S d /\ NoDup (points_of t) /\ forall p, In p (points_of t) -> p < num_points s;
  (* every face of a tetra exists and consists of the corners other than the opposite one *)
  cs_faces : forall i t q fi, In (i, t) (tetras s) -> In (q, fi) t ->
    exists ps, In (face fi, ps) (faces s) /\ Permutation (q :: ps) (points_of t);
  (* the neighbour across a face is the one other tetra that has this face, and the recorded
     point is the corner of the neighbour opposite to the face *)
  cs_opposing : forall i t q fi, In (i, t) (tetras s) -> In (q, fi) t ->
    forall j r, opposing fi = Some (Conn j r) <-> (j <> i /\ has_side s j r (face fi));
  (* no face is left over *)
  cs_no_leak : forall f ps, In (f, ps) (faces s) -> exists i q, has_side s i q f;
  (* every point is a corner of some tetra *)
  cs_points : forall p, p < num_points s -> exists i t, In (i, t) (tetras s) /\ In p (points_of t)
}.

(** Orientation in the plane: the edge opposite to a corner runs around the triangle in the order
    of the corners, or against it if it is marked as flipped. *)
Definition oriented2 (s : triangulation) : Prop :=
  forall i a fa b fb c fc, In (i, [(a, fa); (b, fb); (c, fc)]) (tetras s) ->
    let edge fi x y := In (face fi, if flipped fi then [y; x] else [x; y]) (faces s) in
    edge fa b c /\ edge fb c a /\ edge fc a b.

(** Orientation in space: seen from the opposite corner the face turns one way, or the other way
    if it is marked as flipped. *)
Definition turned (x y z : nat) (ps : list nat) : Prop :=
  ps = [x; y; z] \/ ps = [y; z; x] \/ ps = [z; x; y].
Definition oriented3 (s : triangulation) : Prop :=
  forall i a fa b fb c fc d fd, In (i, [(a, fa); (b, fb); (c, fc); (d, fd)]) (tetras s) ->
    let tri fi x y z := exists ps, In (face fi, ps) (faces s) /\
                          (if flipped fi then turned y x z ps else turned x y z ps) in
    tri fa c b d /\ tri fb a c d /\ tri fc b a d /\ tri fd a b c.

(** Two tetras are neighbours when they share a face. *)
Definition adjacent (s : triangulation) (i j : nat) : Prop :=
  exists f q r, i <> j /\ has_side s i q f /\ has_side s j r f.
Inductive reachable (s : triangulation) : nat -> nat -> Prop :=
| reach_refl : forall i, reachable s i i
| reach_step : forall i j k, reachable s i j -> adjacent s j k -> reachable s i k.
Definition connected (s : triangulation) : Prop :=
  forall i j t u, In (i, t) (tetras s) -> In (j, u) (tetras s) -> reachable s i j.

(** The answers of the circumcircle test that are used: it never reports that a circumcircle
    strictly contains one of the corners that define it. *)
Definition corners_not_inside (in_circle : list nat -> nat -> option bool) : Prop :=
  forall ps p, In p ps -> in_circle ps p <> Some true.

(** The triangulation after the insertion of [n] points into the initial simplex. *)
Definition built2 (in_circle inside : list nat -> nat -> option bool) (pop : nat -> list nat -> nat)
    (n : nat) (s : triangulation) : Prop :=
  exists s0, all_encompassing_2d = Some s0 /\ insert_many split2 flip2 in_circle inside pop n s0 = Some s.
Definition built3 (crossing : list nat -> nat -> nat -> option Geometry_Model.intersection_type)
    (in_circle inside : list nat -> nat -> option bool) (pop : nat -> list nat -> nat)
    (n : nat) (s : triangulation) : Prop :=
  exists s0, all_encompassing_3d = Some s0 /\ insert_many split3 (flip3 crossing) in_circle inside pop n s0 = Some s.
