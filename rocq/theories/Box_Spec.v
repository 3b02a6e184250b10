(** What periodic wrapping and distances mean, per axis and for points. *)
From Coq Require Import List QArith Qabs.
From Verif Require Import Box_Model.
Local Open Scope Q_scope.

(** Two coordinates differ by a whole number of periods. *)
Definition same_class (len a b : Q) : Prop := exists k : Z, a == b + inject_Z k * len.
(** In the half-open interval. *)
Definition in_half_open (mn mx v : Q) : Prop := mn <= v /\ v < mx.

Definition proper2 (b : extent2) : Prop := x2 (min2 b) < x2 (max2 b) /\ y2 (min2 b) < y2 (max2 b).
Definition proper3 (b : extent3) : Prop :=
  x3 (min3 b) < x3 (max3 b) /\ y3 (min3 b) < y3 (max3 b) /\ z3 (min3 b) < z3 (max3 b).

Definition eq2 (p q : vec2) : Prop := x2 p == x2 q /\ y2 p == y2 q.
Definition eq3 (p q : vec3) : Prop := x3 p == x3 q /\ y3 p == y3 q /\ z3 p == z3 q.

Definition in_box2 (b : extent2) (p : vec2) : Prop :=
  in_half_open (x2 (min2 b)) (x2 (max2 b)) (x2 p) /\ in_half_open (y2 (min2 b)) (y2 (max2 b)) (y2 p).
Definition in_box3 (b : extent3) (p : vec3) : Prop :=
  in_half_open (x3 (min3 b)) (x3 (max3 b)) (x3 p) /\ in_half_open (y3 (min3 b)) (y3 (max3 b)) (y3 p)
  /\ in_half_open (z3 (min3 b)) (z3 (max3 b)) (z3 p).
Definition same_class2 (b : extent2) (p q : vec2) : Prop :=
  same_class (x2 (max2 b) - x2 (min2 b)) (x2 p) (x2 q)
  /\ same_class (y2 (max2 b) - y2 (min2 b)) (y2 p) (y2 q).
Definition same_class3 (b : extent3) (p q : vec3) : Prop :=
  same_class (x3 (max3 b) - x3 (min3 b)) (x3 p) (x3 q)
  /\ same_class (y3 (max3 b) - y3 (min3 b)) (y3 p) (y3 q)
  /\ same_class (z3 (max3 b) - z3 (min3 b)) (z3 p) (z3 q).

(** The image of [q] shifted by whole box lengths. *)
Definition shift2 (b : extent2) (kx ky : Z) (q : vec2) : vec2 :=
  V2 (x2 q + inject_Z kx * (x2 (max2 b) - x2 (min2 b)))
     (y2 q + inject_Z ky * (y2 (max2 b) - y2 (min2 b))).
Definition shift3 (b : extent3) (kx ky kz : Z) (q : vec3) : vec3 :=
  V3 (x3 q + inject_Z kx * (x3 (max3 b) - x3 (min3 b)))
     (y3 q + inject_Z ky * (y3 (max3 b) - y3 (min3 b)))
     (z3 q + inject_Z kz * (z3 (max3 b) - z3 (min3 b))).
(** Squared distance of two points in the plane and in space. *)
Definition dist_sq2 (p q : vec2) : Q := (x2 p - x2 q) * (x2 p - x2 q) + (y2 p - y2 q) * (y2 p - y2 q).
Definition dist_sq3 (p q : vec3) : Q :=
  (x3 p - x3 q) * (x3 p - x3 q) + (y3 p - y3 q) * (y3 p - y3 q) + (z3 p - z3 q) * (z3 p - z3 q).

(** A shift by at most one box length per axis. *)
Definition unit_shift (k : Z) : Prop := (k = 0 \/ k = -1 \/ k = 1)%Z.
