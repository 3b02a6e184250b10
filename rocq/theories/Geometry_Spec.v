(** Points, simplices and distances in two and three dimensions, in coordinates. *)
From Coq Require Import List QArith.
Import ListNotations.
From Verif Require Import Geometry_Model.
Local Open Scope Q_scope.

(** Squared distances. *)
Definition dist2_2 (p q : point2) : Q :=
  (x2 p - x2 q) * (x2 p - x2 q) + (y2 p - y2 q) * (y2 p - y2 q).
Definition dist2_3 (p q : point3) : Q :=
  (x3 p - x3 q) * (x3 p - x3 q) + (y3 p - y3 q) * (y3 p - y3 q) + (z3 p - z3 q) * (z3 p - z3 q).

(** Twice the signed area: positive if the corners are in counterclockwise order. *)
Definition area2 (t : triangle2) : Q :=
  (x2 (t2p2 t) - x2 (t2p1 t)) * (y2 (t2p3 t) - y2 (t2p1 t))
  - (y2 (t2p2 t) - y2 (t2p1 t)) * (x2 (t2p3 t) - x2 (t2p1 t)).
(** Six times the signed volume: the scalar triple product of the edges at the first
    corner. *)
Definition triple (ux uy uz vx vy vz wx wy wz : Q) : Q :=
  ux * (vy * wz - vz * wy) - uy * (vx * wz - vz * wx) + uz * (vx * wy - vy * wx).
Definition volume6 (t : tetrahedron) : Q :=
  triple (x3 (ttp2 t) - x3 (ttp1 t)) (y3 (ttp2 t) - y3 (ttp1 t)) (z3 (ttp2 t) - z3 (ttp1 t))
         (x3 (ttp3 t) - x3 (ttp1 t)) (y3 (ttp3 t) - y3 (ttp1 t)) (z3 (ttp3 t) - z3 (ttp1 t))
         (x3 (ttp4 t) - x3 (ttp1 t)) (y3 (ttp4 t) - y3 (ttp1 t)) (z3 (ttp4 t) - z3 (ttp1 t)).

(** The circle (sphere) around [o] goes through all corners. *)
Definition circumscribed2 (t : triangle2) (o : point2) : Prop :=
  dist2_2 o (t2p2 t) == dist2_2 o (t2p1 t) /\ dist2_2 o (t2p3 t) == dist2_2 o (t2p1 t).
Definition circumscribed3 (t : tetrahedron) (o : point3) : Prop :=
  dist2_3 o (ttp2 t) == dist2_3 o (ttp1 t) /\ dist2_3 o (ttp3 t) == dist2_3 o (ttp1 t)
  /\ dist2_3 o (ttp4 t) == dist2_3 o (ttp1 t).

(** [p] is the weighted mean of the corners. *)
Definition mean2 (t : triangle2) (l1 l2 l3 : Q) (p : point2) : Prop :=
  l1 + l2 + l3 == 1
  /\ x2 p == l1 * x2 (t2p1 t) + l2 * x2 (t2p2 t) + l3 * x2 (t2p3 t)
  /\ y2 p == l1 * y2 (t2p1 t) + l2 * y2 (t2p2 t) + l3 * y2 (t2p3 t).
Definition mean3 (t : triangle3) (l1 l2 l3 : Q) (p : point3) : Prop :=
  l1 + l2 + l3 == 1
  /\ x3 p == l1 * x3 (t3p1 t) + l2 * x3 (t3p2 t) + l3 * x3 (t3p3 t)
  /\ y3 p == l1 * y3 (t3p1 t) + l2 * y3 (t3p2 t) + l3 * y3 (t3p3 t)
  /\ z3 p == l1 * z3 (t3p1 t) + l2 * z3 (t3p2 t) + l3 * z3 (t3p3 t).
Definition mean4 (t : tetrahedron) (l1 l2 l3 l4 : Q) (p : point3) : Prop :=
  l1 + l2 + l3 + l4 == 1
  /\ x3 p == l1 * x3 (ttp1 t) + l2 * x3 (ttp2 t) + l3 * x3 (ttp3 t) + l4 * x3 (ttp4 t)
  /\ y3 p == l1 * y3 (ttp1 t) + l2 * y3 (ttp2 t) + l3 * y3 (ttp3 t) + l4 * y3 (ttp4 t)
  /\ z3 p == l1 * z3 (ttp1 t) + l2 * z3 (ttp2 t) + l3 * z3 (ttp3 t) + l4 * z3 (ttp4 t).

(** Strictly inside, strictly outside, on an edge (face). *)
Definition strictly_inside2 (t : triangle2) (p : point2) : Prop :=
  exists l1 l2 l3, mean2 t l1 l2 l3 p /\ 0 < l1 /\ 0 < l2 /\ 0 < l3.
Definition strictly_outside2 (t : triangle2) (p : point2) : Prop :=
  exists l1 l2 l3, mean2 t l1 l2 l3 p /\ (l1 < 0 \/ l2 < 0 \/ l3 < 0).
Definition on_edge2 (t : triangle2) (p : point2) : Prop :=
  exists l1 l2 l3, mean2 t l1 l2 l3 p /\ 0 <= l1 /\ 0 <= l2 /\ 0 <= l3 /\ (l1 == 0 \/ l2 == 0 \/ l3 == 0).
Definition strictly_inside3 (t : tetrahedron) (p : point3) : Prop :=
  exists l1 l2 l3 l4, mean4 t l1 l2 l3 l4 p /\ 0 < l1 /\ 0 < l2 /\ 0 < l3 /\ 0 < l4.
Definition strictly_outside3 (t : tetrahedron) (p : point3) : Prop :=
  exists l1 l2 l3 l4, mean4 t l1 l2 l3 l4 p /\ (l1 < 0 \/ l2 < 0 \/ l3 < 0 \/ l4 < 0).
(** On the plane of one of the faces. *)
Definition on_face_plane3 (t : tetrahedron) (p : point3) : Prop :=
  exists l1 l2 l3 l4, mean4 t l1 l2 l3 l4 p /\ (l1 == 0 \/ l2 == 0 \/ l3 == 0 \/ l4 == 0).

Definition in_box2 (min max p : point2) : Prop :=
  x2 min <= x2 p <= x2 max /\ y2 min <= y2 p <= y2 max.
Definition in_box3 (min max p : point3) : Prop :=
  x3 min <= x3 p <= x3 max /\ y3 min <= y3 p <= y3 max /\ z3 min <= z3 p <= z3 max.

(** The corners of the triangle are not on a line: the squared area is not zero. *)
Definition proper_triangle3 (t : triangle3) : Prop :=
  let ux := x3 (t3p2 t) - x3 (t3p1 t) in let uy := y3 (t3p2 t) - y3 (t3p1 t) in let uz := z3 (t3p2 t) - z3 (t3p1 t) in
  let vx := x3 (t3p3 t) - x3 (t3p1 t) in let vy := y3 (t3p3 t) - y3 (t3p1 t) in let vz := z3 (t3p3 t) - z3 (t3p1 t) in
  ~ (uy * vz - uz * vy == 0 /\ ux * vz - uz * vx == 0 /\ ux * vy - uy * vx == 0).

(** [p] belongs to the triangle. *)
Definition in_triangle3 (t : triangle3) (p : point3) : Prop :=
  exists l1 l2 l3, mean3 t l1 l2 l3 p /\ 0 <= l1 /\ 0 <= l2 /\ 0 <= l3.

(** The line through [q1] and [q2] meets the plane of the triangle at weights
    [l1, l2, l3]. *)
Definition line_meets (t : triangle3) (q1 q2 : point3) (l1 l2 l3 : Q) : Prop :=
  exists k, mean3 t l1 l2 l3
              (P3 (x3 q1 + k * (x3 q2 - x3 q1)) (y3 q1 + k * (y3 q2 - y3 q1)) (z3 q1 + k * (z3 q2 - z3 q1))).

(** The line is parallel to the plane of the triangle. *)
Definition parallel (t : triangle3) (q1 q2 : point3) : Prop :=
  triple (x3 (t3p2 t) - x3 (t3p1 t)) (y3 (t3p2 t) - y3 (t3p1 t)) (z3 (t3p2 t) - z3 (t3p1 t))
         (x3 (t3p3 t) - x3 (t3p1 t)) (y3 (t3p3 t) - y3 (t3p1 t)) (z3 (t3p3 t) - z3 (t3p1 t))
         (x3 q2 - x3 q1) (y3 q2 - y3 q1) (z3 q2 - z3 q1) == 0.

(** Which weights are negative: an edge is named after the opposite corner. *)
Definition describes (i : intersection_type) (l1 l2 l3 : Q) : Prop :=
  match i with
  | Inside => 0 < l1 /\ 0 < l2 /\ 0 < l3
  | OutsideOneEdge One => l1 < 0 /\ 0 < l2 /\ 0 < l3
  | OutsideOneEdge Two => 0 < l1 /\ l2 < 0 /\ 0 < l3
  | OutsideOneEdge Three => 0 < l1 /\ 0 < l2 /\ l3 < 0
  | OutsideTwoEdges Two Three => 0 < l1 /\ l2 < 0 /\ l3 < 0
  | OutsideTwoEdges Two One => l1 < 0 /\ l2 < 0 /\ 0 < l3
  | OutsideTwoEdges Three One => l1 < 0 /\ 0 < l2 /\ l3 < 0
  | OutsideTwoEdges _ _ => False
  end.

(** [p] belongs to the tetrahedron. *)
Definition in_tetra (t : tetrahedron) (p : point3) : Prop :=
  exists l1 l2 l3 l4, mean4 t l1 l2 l3 l4 p /\ 0 <= l1 /\ 0 <= l2 /\ 0 <= l3 /\ 0 <= l4.
