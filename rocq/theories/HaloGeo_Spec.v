(** Sensible inputs of the halo iteration and the states it starts from. *)
From Coq Require Import List Arith QArith Permutation.
From Verif Require Geometry_Model.
From Verif Require Import Box_Model Box_Spec Tree_Model Delaunay_Model Halo_Model Halo_Spec HaloGeo_Model.
Import ListNotations.
Local Open Scope nat_scope.

(** The ranks 0 to [ranks - 1] and no others have particles; identifiers are unique within a rank;
    all particles are in the box. *)
Record distributed2 (ranks : nat) (box : extent2) (particles : nat -> list (nat * vec2)) : Prop := {
  di2_box : proper2 box;
  di2_in : forall r, Forall (fun p => contains2 box (snd p) = true) (particles r);
  di2_ranks : forall r, particles r <> [] <-> r < ranks;
  di2_ids : forall r, NoDup (map fst (particles r))
}.
Record distributed3 (ranks : nat) (box : extent3) (particles : nat -> list (nat * vec3)) : Prop := {
  di3_box : proper3 box;
  di3_in : forall r, Forall (fun p => contains3 box (snd p) = true) (particles r);
  di3_ranks : forall r, particles r <> [] <-> r < ranks;
  di3_ids : forall r, NoDup (map fst (particles r))
}.

(** Every rank has inserted its particles, in some order, into the initial simplex, whose corners are
    anywhere. *)
Definition starts2 (ranks : nat) pop (particles : nat -> list (nat * vec2)) remap (w : list (rank_state vec2 wrap2)) : Prop :=
  length w = ranks /\ forall r s, nth_error w r = Some s -> exists start outer local,
    all_encompassing_2d = Some start /\ length outer = 3 /\ Permutation local (map snd (particles r)) /\
    initial vec2 wrap2 (insert2 pop remap) start outer local = Done s.
Definition starts3 (ranks : nat) pop (particles : nat -> list (nat * vec3)) remap (w : list (rank_state vec3 wrap3)) : Prop :=
  length w = ranks /\ forall r s, nth_error w r = Some s -> exists start outer local,
    all_encompassing_3d = Some start /\ length outer = 4 /\ Permutation local (map snd (particles r)) /\
    initial vec3 wrap3 (insert3 pop remap) start outer local = Done s.

(** The rounds of the iteration with the parts of the code, and what they deliver. *)
Section Rounds.
  Variables (ranks : nat) (cfg : config) (build_fuel search_fuel : nat) (pop : nat -> list nat -> nat).
  Variables (characteristic_length : Q) (chunk_size : nat).
  Definition deliveries2 box particles circumcircle :=
    deliveries vec2 wrap2 wrap2_eqb is_periodic2 (images2 box) closer2 (search_tree2 cfg build_fuel search_fuel box particles)
      (owns_part2 ranks box particles) circumcircle characteristic_length chunk_size.
  Definition round2 box particles remap circumcircle :=
    round vec2 wrap2 wrap2_eqb is_periodic2 (images2 box) closer2 (search_tree2 cfg build_fuel search_fuel box particles)
      (owns_part2 ranks box particles) circumcircle (insert2 pop remap) characteristic_length chunk_size.
  Definition deliveries3 box particles circumcircle :=
    deliveries vec3 wrap3 wrap3_eqb is_periodic3 (images3 box) closer3 (search_tree3 cfg build_fuel search_fuel box particles)
      (owns_part3 ranks box particles) circumcircle characteristic_length chunk_size.
  Definition round3 box particles remap circumcircle :=
    round vec3 wrap3 wrap3_eqb is_periodic3 (images3 box) closer3 (search_tree3 cfg build_fuel search_fuel box particles)
      (owns_part3 ranks box particles) circumcircle (insert3 pop remap) characteristic_length chunk_size.
End Rounds.
