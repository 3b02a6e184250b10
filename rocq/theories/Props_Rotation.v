(** Properties C16 and C49: rotation of the sweep directions. *)
From Coq Require Import List Arith Lia Reals QArith.
Import ListNotations.
From Verif Require Import Rotation_Model Rotation_Spec Rotation_Proofs.

Section C16.
Local Open Scope Q_scope.

(** C16. What [remap] computes: direction [i] gets the rate of the last old direction if
    the new direction best aligned with the old direction [i] is the last one, and zero
    otherwise. Every assignment in the inner loop overwrites the previous one. *)
Theorem C16_redistribution : forall values old_dirs new_dirs n,
  length values = S n -> length old_dirs = S n -> length new_dirs = S n ->
  exists r, remap values old_dirs new_dirs = Some r /\ length r = S n
    /\ forall i, (i <= n)%nat -> exists m, best_aligned (nth i old_dirs (QV 0 0 0)) new_dirs m
         /\ nth i r 0 == (if (m =? n)%nat then nth n values 0 else 0).
Proof. exact remap_result. Qed.
Print Assumptions C16_redistribution.

(** Therefore even the rotation by a zero angle drops all rates but the last one. *)
Theorem C16_identity_rotation : forall values dirs n, length values = S n -> length dirs = S n ->
  Forall unit_vec dirs -> distinct_dirs dirs ->
  exists r, remap values dirs dirs = Some r /\ length r = S n
    /\ (forall i, (i < n)%nat -> nth i r 0 == 0) /\ nth n r 0 == nth n values 0.
Proof. exact identity_remap. Qed.
Print Assumptions C16_identity_rotation.

(** The total of a cell is not preserved: a rotation by 90 degrees around z with three
    unit directions and rates of one each. *)
Theorem C16_total_preserved_refuted : exists values old_dirs new_dirs r,
  Forall unit_vec old_dirs /\ Forall unit_vec new_dirs
  /\ new_dirs = map (fun d => QV (- qy d) (qx d) (qz d)) old_dirs
  /\ remap values old_dirs new_dirs = Some r /\ qsum values == 4 /\ qsum r == 1.
Proof.
  exists [1; 1; 1; 1], [QV 1 0 0; QV 0 1 0; QV (-1) 0 0; QV 0 (-1) 0], [QV 0 1 0; QV (-1) 0 0; QV 0 (-1) 0; QV 1 0 0].
  eexists. split; [repeat constructor|]. split; [repeat constructor|]. split; [reflexivity|].
  split; [vm_compute; reflexivity|]. split; reflexivity.
Qed.
Print Assumptions C16_total_preserved_refuted.

Example C16_example : Forall unit_vec [QV 1 0 0; QV 0 1 0; QV (3 # 5) 0 (4 # 5)] /\ distinct_dirs [QV 1 0 0; QV 0 1 0; QV (3 # 5) 0 (4 # 5)]
  /\ remap [5; 6; 7] [QV 1 0 0; QV 0 1 0; QV (3 # 5) 0 (4 # 5)] [QV 1 0 0; QV 0 1 0; QV (3 # 5) 0 (4 # 5)] = Some [0; 0; 7].
Proof.
  split; [repeat constructor|]. split.
  - intros [|[|[|i]]] [|[|[|j]]] Hi Hj Hn [H1 [H2 H3]]; cbn in *; try congruence; try discriminate; exfalso; lia.
  - vm_compute. reflexivity.
Qed.
End C16.

Section C49.
Local Open Scope R_scope.

(** C49. The matrix drawn from any three random numbers preserves all scalar products
    and has determinant one, so it is a rotation. *)
Theorem C49_random_matrix_is_rotation : forall phi rand psi,
  (forall a b, rdot (multiply_by_matrix a (get_random_rotation_matrix phi rand psi))
                    (multiply_by_matrix b (get_random_rotation_matrix phi rand psi)) = rdot a b)
  /\ det (get_random_rotation_matrix phi rand psi) = 1.
Proof. exact random_rotation. Qed.
Print Assumptions C49_random_matrix_is_rotation.

(** All lengths of the directions and angles between them are kept. *)
Theorem C49_directions_keep_angles : forall phi rand psi dirs i j di dj,
  nth_error dirs i = Some di -> nth_error dirs j = Some dj ->
  exists di' dj', nth_error (rotate_directions (get_random_rotation_matrix phi rand psi) dirs) i = Some di'
    /\ nth_error (rotate_directions (get_random_rotation_matrix phi rand psi) dirs) j = Some dj' /\ rdot di' dj' = rdot di dj.
Proof. exact rotate_directions_ok. Qed.
Print Assumptions C49_directions_keep_angles.

(** The matrix is the rotation around the given axis. *)
Theorem C49_axis_fixed : forall axis angle, rdot axis axis = 1 ->
  multiply_by_matrix axis (get_rotation_matrix axis angle) = axis.
Proof. exact rotation_axis. Qed.
Print Assumptions C49_axis_fixed.

Example C49_example : rdot (RV 0 0 1) (RV 0 0 1) = 1
  /\ nth_error [RV 1 0 0; RV 0 1 0] 0 = Some (RV 1 0 0) /\ nth_error [RV 1 0 0; RV 0 1 0] 1 = Some (RV 0 1 0)
  /\ multiply_by_matrix (RV 1 0 0) (get_rotation_matrix (RV 0 0 1) (PI / 2)) = RV 0 1 0.
Proof.
  unfold rdot, multiply_by_matrix, get_rotation_matrix. cbn [rx ry rz row0 row1 row2].
  rewrite cos_PI2, sin_PI2. split; [ring|]. split; [reflexivity|]. split; [reflexivity|]. f_equal; ring.
Qed.
End C49.
