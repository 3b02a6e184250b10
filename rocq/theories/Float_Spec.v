(** What it means that a number of type [f64] stands for a rational number, and boxes of points. *)
From Coq Require Import ZArith QArith Qreals Reals.
From Flocq Require Import Core.Core IEEE754.BinarySingleNaN.
From Verif Require Import Geometry_Model Geometry_Spec Float_Model.

Definition represents (x : f64) (q : Q) : Prop := is_finite x = true /\ B2R x = Q2R q.
Definition represents3 (p : fpoint3) (q : point3) : Prop := represents (fx p) (x3 q) /\ represents (fy p) (y3 q) /\ represents (fz p) (z3 q).
Definition represents_tetra (t : ftetrahedron) (T : tetrahedron) : Prop :=
  represents3 (ft1 t) (ttp1 T) /\ represents3 (ft2 t) (ttp2 T) /\ represents3 (ft3 t) (ttp3 T) /\ represents3 (ft4 t) (ttp4 T).

(** The box the positions are mapped to before the triangulation looks at them. *)
Definition unit_box (p : point3) : Prop := in_box3 (P3 1 1 1) (P3 2 2 2) p.
Definition unit_tetra (t : tetrahedron) : Prop := unit_box (ttp1 t) /\ unit_box (ttp2 t) /\ unit_box (ttp3 t) /\ unit_box (ttp4 t).

Definition same_point3 (p q : point3) : Prop := (x3 p == x3 q)%Q /\ (y3 p == y3 q)%Q /\ (z3 p == z3 q)%Q.
Definition a_corner (t : tetrahedron) (p : point3) : Prop := same_point3 p (ttp1 t) \/ same_point3 p (ttp2 t) \/ same_point3 p (ttp3 t) \/ same_point3 p (ttp4 t).

(** Finite numbers and their values; sizes far from overflow and underflow. *)
Definition finite (x : f64) : Prop := is_finite x = true.
Definition value (x : f64) : R := B2R x.
Definition moderate (x : R) : Prop := (bpow radix2 (-900) <= x <= bpow radix2 900)%R.
(** [z] is a number of type [f64] for which none is closer to [x]. *)
Definition closest (z : f64) (x : R) : Prop := finite z /\ forall w, finite w -> (Rabs (value z - x) <= Rabs (value w - x))%R.
(** [x] lies in the extent from [min] to [max]. *)
Definition within (min max x : f64) : Prop := finite min /\ finite max /\ finite x /\ (value min <= value x <= value max)%R.
Definition within3 (min max p : fpoint3) : Prop := within (fx min) (fx max) (fx p) /\ within (fy min) (fy max) (fy p) /\ within (fz min) (fz max) (fz p).
(** The extent is neither empty nor very small compared with its distance from the origin. *)
Definition resolved (min max : f64) : Prop :=
  let size := (value max - value min)%R in
  (bpow radix2 (-800) <= size <= bpow radix2 800 /\ Rabs (value min) <= bpow radix2 40 * size /\ Rabs (value max) <= bpow radix2 40 * size)%R.
Definition resolved3 (min max : fpoint3) : Prop := resolved (fx min) (fx max) /\ resolved (fy min) (fy max) /\ resolved (fz min) (fz max).
(** [x] and [y] are at least the fraction [f] of the extent apart. *)
Definition apart (f : R) (min max x y : f64) : Prop := (f * (value max - value min) <= Rabs (value x - value y))%R.
