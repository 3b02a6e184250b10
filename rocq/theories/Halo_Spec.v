(** What the import of halo particles should achieve, and what it needs from its surroundings. *)
From Coq Require Import List Arith QArith.
From Verif Require Import Delaunay_Model Halo_Model.
Import ListNotations.
Local Open Scope nat_scope.

(** Any number of steps, none of which ends in a panic. *)
Inductive steps {A : Type} (step : A -> outcome A) : A -> A -> Prop :=
| steps_none : forall w, steps step w w
| steps_more : forall w w1 w2, step w = Done w1 -> steps step w1 w2 -> steps step w w2.

Section Spec.
  Variables P W : Type.
  Variable is_periodic : W -> bool.
  Variable images : P -> list (W * P).
  Variable closer : P -> P -> Q -> bool.
  Variable search_tree : nat -> P -> Q -> option (list (nat * P)).
  Variable owns_part : nat -> P -> Q -> bool.
  Variable circumcircle : list P -> P * Q.
  (** The particles of every rank: identifier and position. *)
  Variable particles : nat -> list (nat * P).

  (** The images of a particle of rank [rank] that are not themselves particles of rank [self]. *)
  Definition foreign (self rank : nat) (w : W) : Prop := rank <> self \/ is_periodic w = true.

  (** [p] is the image of kind [w] of particle [id] of rank [rank]. *)
  Definition image_of (rank id : nat) (w : W) (p : P) : Prop :=
    exists pos, In (id, pos) (particles rank) /\ In (w, p) (images pos).

  (** The tree search finds exactly the particles with an image within the radius. *)
  Definition tree_search_exact : Prop := forall rank c radius l, search_tree rank c radius = Some l ->
    forall id pos, In (id, pos) l <->
      In (id, pos) (particles rank) /\ exists w p, In (w, p) (images pos) /\ closer c p radius = true.
  (** A rank that does not own part of a search sphere has no particle with an image in it. *)
  Definition extents_sound : Prop := forall rank c radius, owns_part rank c radius = false ->
    forall id w p, image_of rank id w p -> closer c p radius = false.

  (** The entry of a halo in the map of the importing rank [self]. *)
  Definition halo_key (self rank id : nat) (w : W) : particle_type W :=
    if rank =? self then LocalPeriodic W id w
    else if is_periodic w then RemotePeriodic W id rank w else Remote W id rank.

  (** A point of rank [self] that stands for an image: a halo with this position. *)
  Definition imported (self : nat) (s : rank_state P W) (rank id : nat) (w : W) (p : P) : Prop :=
    exists i, In (halo_key self rank id w, i) (haloes P W s) /\ nth_error (points P W s) i = Some p.

  (** All tetras with an inner corner have been searched completely: every image closer to the center
      of the circumsphere than the radius, enlarged by the safety factor, is a point of the triangulation. *)
  Definition complete (self : nat) (s : rank_state P W) : Prop :=
    forall i t, In (i, t) (tetras (tri P W s)) ->
    (exists c, In c (points_of t) /\ nth_error (kinds P W s) c = Some Inner) ->
    forall center radius, circumcircle (corner_positions P W s t) = (center, radius) ->
    forall rank id w p, image_of rank id w p -> closer center p (Qmult radius search_safety_factor) = true ->
      (foreign self rank w -> imported self s rank id w p) /\
      (rank = self -> exists pos, In (id, pos) (particles rank) /\ In (w, p) (images pos) /\ In pos (points P W s)).
End Spec.
