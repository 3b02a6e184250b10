(** The geometric predicates as the construction uses them: on the corners of a tetra, looked up
    in the table of points. *)
From Coq Require Import List Arith QArith.
From Verif Require Import Geometry_Model Delaunay_Model.
Import ListNotations.

(* mod.rs 190-204 (get_remapped_tetra_data, get_remapped_face_data, get_remapped_point), 324-327
   (circumcircle_contains_point), point_location.rs 38-45 (tetra_contains_point), impl_3d.rs 361-363
   (get_line_intersection_type).  [pts] gives the remapped coordinates of a point; the table of
   points only grows and the extent is fixed, so an index always means the same coordinates. *)
Definition circle2 (pts : nat -> point2) (l : list nat) (p : nat) : option bool :=
  match l with
  | [a; b; c] => circumcircle_contains2 (T2 (pts a) (pts b) (pts c)) (pts p)
  | _ => None
  end.
Definition inside2 (pts : nat -> point2) (l : list nat) (p : nat) : option bool :=
  match l with
  | [a; b; c] => contains2 (T2 (pts a) (pts b) (pts c)) (pts p)
  | _ => None
  end.
Definition circle3 (pts : nat -> point3) (l : list nat) (p : nat) : option bool :=
  match l with
  | [a; b; c; d] => circumcircle_contains3 (TT (pts a) (pts b) (pts c) (pts d)) (pts p)
  | _ => None
  end.
Definition inside3 (pts : nat -> point3) (l : list nat) (p : nat) : option bool :=
  match l with
  | [a; b; c; d] => contains3 (TT (pts a) (pts b) (pts c) (pts d)) (pts p)
  | _ => None
  end.
Definition crossing3 (pts : nat -> point3) (l : list nat) (p q : nat) : option intersection_type :=
  match l with
  | [a; b; c] => get_line_intersection_type (T3 (pts a) (pts b) (pts c)) (pts p) (pts q)
  | _ => None
  end.
