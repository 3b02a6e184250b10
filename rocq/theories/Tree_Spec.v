(** What a search tree over particles is. *)
From Coq Require Import List Arith QArith Permutation.
Import ListNotations.
From Verif Require Import Box_Model Box_Spec Tree_Model.
Local Open Scope nat_scope.

Section Spec.
Context {E L : Type}.

(** The particles in the leaves below a node. *)
Fixpoint contents (t : tree E L) : list L :=
  match t with
  | Leaf _ _ l => l
  | Node _ _ children => flat_map contents children
  end.

(** [subtree t d s]: the node [s] is [d] levels below [t]. *)
Inductive subtree : tree E L -> nat -> tree E L -> Prop :=
| subtree_self : forall t, subtree t 0 t
| subtree_child : forall e data children c d s,
    In c children -> subtree c d s -> subtree (Node e data children) (S d) s.

(** Every node counts the particles below it and its extent contains them. *)
Definition counts_right (t : tree E L) : Prop :=
  forall d s, subtree t d s -> data_of _ _ s = length (contents s).
Definition extents_right (contains : E -> L -> bool) (t : tree E L) : Prop :=
  forall d s p, subtree t d s -> In p (contents s) -> contains (extent_of _ _ s) p = true.
(** No node below the maximum depth; leaves above it hold at most [limit]. *)
Definition depth_limited (max_depth : nat) (t : tree E L) : Prop :=
  forall d s, subtree t d s -> d <= max_depth.
Definition leaves_limited (max_depth limit : nat) (t : tree E L) : Prop :=
  forall d e data l, subtree t d (Leaf e data l) -> d < max_depth -> length l <= limit.
End Spec.

(** Some image of [p], shifted by at most one box length along every axis, is
    closer to [q] than [r]. *)
Definition near3 (b : extent3) (q : vec3) (r : Q) (p : vec3) : Prop :=
  (0 < r)%Q /\ exists kx ky kz, unit_shift kx /\ unit_shift ky /\ unit_shift kz
               /\ (dist_sq3 (shift3 b kx ky kz p) q < r * r)%Q.
Definition near2 (b : extent2) (q : vec2) (r : Q) (p : vec2) : Prop :=
  (0 < r)%Q /\ exists kx ky, unit_shift kx /\ unit_shift ky
               /\ (dist_sq2 (shift2 b kx ky p) q < r * r)%Q.
(** The same for images shifted by any number of box lengths. *)
Definition near3_any (b : extent3) (q : vec3) (r : Q) (p : vec3) : Prop :=
  (0 < r)%Q /\ exists kx ky kz, (dist_sq3 (shift3 b kx ky kz p) q < r * r)%Q.
Definition near2_any (b : extent2) (q : vec2) (r : Q) (p : vec2) : Prop :=
  (0 < r)%Q /\ exists kx ky, (dist_sq2 (shift2 b kx ky p) q < r * r)%Q.
(** At most half a box length outside of the box. *)
Definition near_box1 (mn mx q : Q) : Prop := (mn - (mx - mn) / 2 <= q /\ q <= mx + (mx - mn) / 2)%Q.
Definition near_box3 (b : extent3) (q : vec3) : Prop :=
  near_box1 (x3 (min3 b)) (x3 (max3 b)) (x3 q) /\ near_box1 (y3 (min3 b)) (y3 (max3 b)) (y3 q)
  /\ near_box1 (z3 (min3 b)) (z3 (max3 b)) (z3 q).
Definition near_box2 (b : extent2) (q : vec2) : Prop :=
  near_box1 (x2 (min2 b)) (x2 (max2 b)) (x2 q) /\ near_box1 (y2 (min2 b)) (y2 (max2 b)) (y2 q).

(** [r] consists of exactly those elements of [l] that satisfy [P], each as often
    as in [l]. *)
Definition selection {A : Type} (P : A -> Prop) (l r : list A) : Prop :=
  exists rest, Permutation l (r ++ rest) /\ Forall P r /\ Forall (fun x => ~ P x) rest.
