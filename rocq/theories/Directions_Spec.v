(** What sets of directions are for. *)
From Coq Require Import List ZArith QArith Qabs Reals.
From Verif Require Import Directions_Model.
Import ListNotations.
Local Open Scope Q_scope.

Definition dot (u v : vec3) : Q := let '(x, y, z) := u in let '(x', y', z') := v in x * x' + y * y' + z * z'.
Definition sum (l : list Q) : Q := fold_right Qplus 0 l.
(** The mean over all directions of what flows through a face with normal [n], and of its square. *)
Definition mean_flux (l : list vec3) (n : vec3) : Q := sum (map (fun d => dot d n) l) / inject_Z (Z.of_nat (length l)).
Definition mean_square (l : list vec3) (n : vec3) : Q := sum (map (fun d => dot d n * dot d n) l) / inject_Z (Z.of_nat (length l)).
Definition rsum (l : list R) : R := fold_right Rplus 0%R l.
