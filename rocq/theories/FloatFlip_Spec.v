(** Triangles of numbers of type [f64], and how far a line and a triangle, or a triangle and a point, are from a degenerate
    position. *)
From Coq Require Import ZArith QArith Qabs.
From Verif Require Import Geometry_Model Geometry_Spec Float_Model Float_Spec FloatFlip_Model.
Local Open Scope Q_scope.

Definition represents_triangle3 (t : ftriangle3) (T : triangle3) : Prop := represents3 (ft31 t) (t3p1 T) /\ represents3 (ft32 t) (t3p2 T) /\ represents3 (ft33 t) (t3p3 T).
Definition unit_triangle3 (t : triangle3) : Prop := unit_box (t3p1 t) /\ unit_box (t3p2 t) /\ unit_box (t3p3 t).
Definition represents2 (p : fpoint2) (q : point2) : Prop := represents (gx p) (x2 q) /\ represents (gy p) (y2 q).
Definition represents_triangle2 (t : ftriangle2) (T : triangle2) : Prop := represents2 (ft21 t) (t2p1 T) /\ represents2 (ft22 t) (t2p2 T) /\ represents2 (ft23 t) (t2p3 T).
Definition unit_square (p : point2) : Prop := in_box2 (P2 1 1) (P2 2 2) p.
Definition unit_triangle2 (t : triangle2) : Prop := unit_square (t2p1 t) /\ unit_square (t2p2 t) /\ unit_square (t2p3 t).

(** Six times the volume between the triangle and the vector from [q1] to [q2]: zero if they are parallel. *)
Definition volume_of_line (t : triangle3) (q1 q2 : point3) : Q :=
  triple (x3 (t3p2 t) - x3 (t3p1 t)) (y3 (t3p2 t) - y3 (t3p1 t)) (z3 (t3p2 t) - z3 (t3p1 t))
         (x3 (t3p3 t) - x3 (t3p1 t)) (y3 (t3p3 t) - y3 (t3p1 t)) (z3 (t3p3 t) - z3 (t3p1 t))
         (x3 q2 - x3 q1) (y3 q2 - y3 q1) (z3 q2 - z3 q1).
(** The weight [l] is not small for a triangle of (doubled) area or volume [d]. *)
Definition clear (limit d l : Q) : Prop := limit <= d * d * Qabs l.
