(** C82: the sets of directions along which the sweep transports radiation. *)
From Coq Require Import List ZArith QArith Qabs Reals.
From Verif Require Import Directions_Model Directions_Spec Directions_Proofs.
Import ListNotations.
Local Open Scope Q_scope.

(** A set of directions in space exists exactly for 1, 16, 21, 32, 64 and 84 directions; for every other number the program stops. *)
Theorem C82_numbers : forall num, (exists l, from_num3 num = Some l) <-> In num [1; 16; 21; 32; 64; 84]%nat.
Proof. exact from_num_defined. Qed.
Print Assumptions C82_numbers.

(** Every set has as many directions as were asked for, they have length one up to the six digits of the table, and no two of them are
    closer than twenty degrees. *)
Theorem C82_unit_and_distinct : forall num l, from_num3 num = Some l -> length l = num /\
  (forall d, In d l -> Qabs (dot d d - 1) <= 1 # 500000) /\ ForallOrdPairs (fun d e => dot d e <= 939 # 1000) l.
Proof. exact table_ok. Qed.
Print Assumptions C82_unit_and_distinct.

(** For more than one direction, and for a face with any normal vector: what uniform radiation of all directions carries through it
    cancels, and the mean of the squares is that of isotropic radiation. *)
Theorem C82_isotropic : forall num l, from_num3 num = Some l -> num <> 1%nat -> forall x y z,
  Qabs (mean_flux l (x, y, z)) <= (1 # 100000) * (Qabs x + Qabs y + Qabs z) /\
  Qabs (mean_square l (x, y, z) - (1 # 3) * (x * x + y * y + z * z)) <= (1 # 250) * ((Qabs x + Qabs y + Qabs z) * (Qabs x + Qabs y + Qabs z)).
Proof. exact table_isotropic. Qed.
Print Assumptions C82_isotropic.

Example C82_example : exists l, from_num3 84 = Some l /\ length l = 84%nat /\ nth 0 l (0, 0, 0) <> (0, 0, 0).
Proof. eexists. split; [reflexivity|]. split; [reflexivity | discriminate]. Qed.

Local Open Scope R_scope.
(** In the plane, for every number: the directions have length one, … *)
Theorem C82_plane_unit : forall num d, In d (from_num2 num) -> fst d * fst d + snd d * snd d = 1.
Proof. exact plane_unit. Qed.
Print Assumptions C82_plane_unit.

(** … any two of them enclose at least the angle of a full turn divided by their number, … *)
Theorem C82_plane_distinct : forall num i j, (i < j < num)%nat ->
  fst (direction2 num i) * fst (direction2 num j) + snd (direction2 num i) * snd (direction2 num j) <= cos (2 * PI / INR num).
Proof. exact plane_apart. Qed.
Print Assumptions C82_plane_distinct.

(** … and for two or more they cancel exactly. *)
Theorem C82_plane_balanced : forall num, (2 <= num)%nat ->
  rsum (map fst (from_num2 num)) = 0 /\ rsum (map snd (from_num2 num)) = 0.
Proof. exact plane_balanced. Qed.
Print Assumptions C82_plane_balanced.

Example C82_plane_example : length (from_num2 5) = 5%nat /\ In (direction2 5 3) (from_num2 5) /\ (1 < 3 < 5)%nat.
Proof. split; [reflexivity|]. split; [cbn; tauto | auto]. Qed.

(** A direction given in the parameters becomes the direction of length one that points the same way. *)
Theorem C82_explicit : forall x y z, (x, y, z) <> (0, 0, 0) -> exists k x' y' z', explicit (x, y, z) = Some (x', y', z') /\
  0 < k /\ x' = k * x /\ y' = k * y /\ z' = k * z /\ x' * x' + y' * y' + z' * z' = 1.
Proof. exact explicit_unit. Qed.
Print Assumptions C82_explicit.

Example C82_explicit_example : ((3, 0, 4) : R * R * R) <> (0, 0, 0).
Proof. intros H. injection H as H1 H2. revert H1. apply not_0_IZR. discriminate. Qed.
