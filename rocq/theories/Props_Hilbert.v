(** Properties C22 and C23: the space-filling-curve keys; and what they mean for
    the ownership of particles (C17). *)
From Coq Require Import List Arith NArith QArith Lia Permutation.
Import ListNotations.
From Verif Require Import Hilbert_Model Hilbert_Spec Hilbert_Curve Hilbert_Proofs.
From Verif Require Import Decomp_Model Decomp_Spec Ownership_Proofs.
Local Open Scope N_scope.

(** C22. For every depth the two-dimensional key numbers the points of the grid
    without gaps or repetitions. *)
Theorem C22_bijection : forall bits,
  bijection (in_grid_2d (2 ^ N.of_nat bits)) (2 ^ N.of_nat (2 * bits)) (key_2d bits).
Proof. exact key_2d_bijection. Qed.
Print Assumptions C22_bijection.

(** Points with consecutive keys are neighbours in the grid. *)
Theorem C22_consecutive_keys_adjacent : forall bits,
  consecutive_adjacent (in_grid_2d (2 ^ N.of_nat bits)) dist_2d (key_2d bits).
Proof. exact key_2d_adjacent. Qed.
Print Assumptions C22_consecutive_keys_adjacent.

(** The points with keys in any contiguous interval are connected. *)
Theorem C22_intervals_connected : forall bits lo hi,
  connected (key_interval (in_grid_2d (2 ^ N.of_nat bits)) (key_2d bits) lo hi) dist_2d.
Proof. exact key_2d_connected. Qed.
Print Assumptions C22_intervals_connected.

Example C22_example :
  map (key_2d 2) [(0,0); (1,0); (1,1); (0,1); (0,2); (0,3); (3,3); (2,1); (3,0)]
    = [0; 1; 2; 3; 4; 5; 10; 13; 15]
  /\ key_2d bits_2d (12345, 67890) = 15665963117.
Proof. vm_compute. split; reflexivity. Qed.

(** C23. The same for the three-dimensional, table-driven key. *)
Theorem C23_bijection : forall bits, (1 <= bits)%nat ->
  bijection (in_grid_3d (2 ^ N.of_nat bits)) (2 ^ N.of_nat (3 * bits)) (key_3d bits).
Proof. exact key_3d_bijection. Qed.
Print Assumptions C23_bijection.

Theorem C23_consecutive_keys_adjacent : forall bits, (1 <= bits)%nat ->
  consecutive_adjacent (in_grid_3d (2 ^ N.of_nat bits)) dist_3d (key_3d bits).
Proof. exact key_3d_adjacent. Qed.
Print Assumptions C23_consecutive_keys_adjacent.

Theorem C23_intervals_connected : forall bits lo hi, (1 <= bits)%nat ->
  connected (key_interval (in_grid_3d (2 ^ N.of_nat bits)) (key_3d bits) lo hi) dist_3d.
Proof. exact key_3d_connected. Qed.
Print Assumptions C23_intervals_connected.

Example C23_example :
  map (key_3d 1) [(0,0,0); (0,0,1); (0,1,0); (0,1,1); (1,0,0); (1,0,1); (1,1,0); (1,1,1)]
    = [0; 7; 1; 6; 3; 4; 2; 5]
  /\ map (key_3d bits_3d) [(1, 2, 3); (2^42 - 1, 77, 2^41)]
    = [48; 44054413574585783216240462569291378750].
Proof. vm_compute. split; reflexivity. Qed.

(** C17. Keys of particles never take the largest value of the key type, so every
    particle of the box is owned by exactly one existing rank, in two and in three
    dimensions. [keys] holds, for every rank, the (sorted) keys of its particles. *)
Theorem C17_particles_are_owned_2d :
  forall mn mx (points : list (list (Q * Q))) maxd n cuts loads keys,
  (forall p, In p (concat points) -> inside_2d mn mx p) ->
  Forall2 (fun ks ps => Permutation ks (map (point_key_2d bits_2d mn mx) ps)) keys points ->
  decompose kmax_2d maxd keys n = Some (cuts, loads) ->
  forall p, In p (concat points) ->
  interval_ownership (owning_rank cuts) n (point_key_2d bits_2d mn mx p).
Proof. exact particles_owned_2d. Qed.
Print Assumptions C17_particles_are_owned_2d.

Theorem C17_particles_are_owned_3d :
  forall mn mx (points : list (list (Q * Q * Q))) maxd n cuts loads keys,
  (forall p, In p (concat points) -> inside_3d mn mx p) ->
  Forall2 (fun ks ps => Permutation ks (map (point_key_3d bits_3d mn mx) ps)) keys points ->
  decompose kmax_3d maxd keys n = Some (cuts, loads) ->
  forall p, In p (concat points) ->
  interval_ownership (owning_rank cuts) n (point_key_3d bits_3d mn mx p).
Proof. exact particles_owned_3d. Qed.
Print Assumptions C17_particles_are_owned_3d.

Definition ex_points : list (list (Q * Q)) :=
  [[(0, 0); (1, 1); (1#2, 1#3)]; [(1#5, 1#7); (1#4, 3#4)]]%Q.
Definition ex_point_keys : list (list N) := map (map (point_key_2d bits_2d (0, 0)%Q (1, 1)%Q)) ex_points.
Example C17_points_example :
  (forall p, In p (concat ex_points) -> inside_2d (0, 0)%Q (1, 1)%Q p)
  /\ match decompose kmax_2d max_depth_2d ex_point_keys 2 with
     | Some (cuts, _) => map (map (owning_rank cuts)) ex_point_keys = [[0; 1; 1]; [0; 1]]%nat
     | None => False
     end.
Proof.
  split.
  - intros p Hp. cbn in Hp. repeat (destruct Hp as [<-|Hp]; [repeat split; vm_compute; discriminate || reflexivity|]).
    destruct Hp.
  - vm_compute. reflexivity.
Qed.
