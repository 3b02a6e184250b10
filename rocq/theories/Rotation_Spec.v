(** What a rotation of directions should do. *)
From Coq Require Import List Arith Reals QArith.
From Verif Require Import Rotation_Model.
Import ListNotations.

Section Matrix.
  Local Open Scope R_scope.
  Definition rdot (a b : rvec) : R := rx a * rx b + ry a * ry b + rz a * rz b.
  Definition det (m : rmat) : R :=
    rx (row0 m) * (ry (row1 m) * rz (row2 m) - rz (row1 m) * ry (row2 m))
    - ry (row0 m) * (rx (row1 m) * rz (row2 m) - rz (row1 m) * rx (row2 m))
    + rz (row0 m) * (rx (row1 m) * ry (row2 m) - ry (row1 m) * rx (row2 m)).
End Matrix.

Section Remap.
  Local Open Scope Q_scope.
  Definition unit_vec (d : qvec) : Prop := qdot d d == 1.
  Definition same_vec (a b : qvec) : Prop := qx a == qx b /\ qy a == qy b /\ qz a == qz b.
  Definition qsum (l : list Q) : Q := fold_right Qplus 0 l.
  (** The direction with index [m] is best aligned with [d], and the last such. *)
  Definition best_aligned (d : qvec) (dirs : list qvec) (m : nat) : Prop :=
    (m < length dirs)%nat
    /\ (forall j, (j < length dirs)%nat -> qdot d (nth j dirs (QV 0 0 0)) <= qdot d (nth m dirs (QV 0 0 0)))
    /\ (forall j, (m < j < length dirs)%nat -> qdot d (nth j dirs (QV 0 0 0)) < qdot d (nth m dirs (QV 0 0 0))).
  Definition distinct_dirs (dirs : list qvec) : Prop :=
    forall i j, (i < length dirs)%nat -> (j < length dirs)%nat -> i <> j -> ~ same_vec (nth i dirs (QV 0 0 0)) (nth j dirs (QV 0 0 0)).
End Remap.
