(** Model of the rotation of the sweep directions ([/repo/src/sweep/direction/mod.rs]).

    The rotation matrix is modelled over the real numbers, the redistribution of rates
    over the rationals, because the first uses sine and cosine and the second compares.
    Rounding is left out. [None] is a panic. *)
From Coq Require Import List Arith Reals QArith.
Import ListNotations.

(** * Rotation matrix *)
Section Matrix.
  Local Open Scope R_scope.

  Record rvec : Type := RV { rx : R; ry : R; rz : R }.
  Record rmat : Type := RM { row0 : rvec; row1 : rvec; row2 : rvec }.

  (** [get_rotation_matrix], mod.rs 114-135. *)
  Definition get_rotation_matrix (axis : rvec) (angle : R) : rmat :=
    let x := rx axis in let y := ry axis in let z := rz axis in
    let c := cos angle in let s := sin angle in
    RM (RV (c + x * x * (1 - c)) (x * y * (1 - c) - z * s) (x * z * (1 - c) + y * s))
       (RV (y * x * (1 - c) + z * s) (c + y * y * (1 - c)) (y * z * (1 - c) - x * s))
       (RV (z * x * (1 - c) - y * s) (z * y * (1 - c) + x * s) (c + z * z * (1 - c))).

  (** [get_random_rotation_matrix], mod.rs 137-148, as a function of the three random
      numbers. *)
  Definition get_random_rotation_matrix (phi rand psi : R) : rmat :=
    let theta := acos (2 * rand - 1) in
    let axis := RV (cos phi * sin theta) (sin phi * sin theta) (cos theta) in
    get_rotation_matrix axis psi.

  (** [multiply_by_matrix], mod.rs 150-155. *)
  Definition multiply_by_matrix (v : rvec) (m : rmat) : rvec :=
    let row r := rx v * rx r + ry v * ry r + rz v * rz r in
    RV (row (row0 m)) (row (row1 m)) (row (row2 m)).

  (** The loop over the directions in [rotate_directions_system], mod.rs 165-167. *)
  Definition rotate_directions (m : rmat) (dirs : list rvec) : list rvec :=
    map (fun d => multiply_by_matrix d m) dirs.
End Matrix.

(** * Redistribution of rates *)
Section Remap.
  Local Open Scope Q_scope.

  Record qvec : Type := QV { qx : Q; qy : Q; qz : Q }.
  Definition qdot (a b : qvec) : Q := qx a * qx b + qy a * qy b + qz a * qz b.

  (** [enumerate().max_by_key(..)]: the index of the last largest element. [best] is the
      index and key of the best element so far, [i] the index of the next one. *)
  Fixpoint max_by_key (best : nat * Q) (i : nat) (keys : list Q) : nat :=
    match keys with
    | [] => fst best
    | k :: keys' => max_by_key (if Qle_bool (snd best) k then (i, k) else best) (S i) keys'
    end.
  Definition argmax (keys : list Q) : option nat :=
    match keys with [] => None | k :: keys' => Some (max_by_key (0%nat, k) 1 keys') end.

  (** [kernel_f], mod.rs 176-188. *)
  Definition kernel_f (d1 : qvec) (dirs : list qvec) : option (list Q) :=
    match argmax (map (fun d2 => 1 + qdot d1 d2) dirs) with
    | None => None
    | Some m => Some (map (fun i => if (i =? m)%nat then 1 else 0) (seq 0 (length dirs)))
    end.

  Fixpoint replace_nth (i : nat) (v : Q) (l : list Q) : list Q :=
    match l, i with
    | [], _ => []
    | _ :: l', O => v :: l'
    | a :: l', S i' => a :: replace_nth i' v l'
    end.

  Fixpoint all_some {A : Type} (l : list (option A)) : option (list A) :=
    match l with
    | [] => Some []
    | None :: _ => None
    | Some a :: l' => option_map (cons a) (all_some l')
    end.

  (** [remap], mod.rs 190-205. Indices are inside the lists if there are as many values
      as directions. *)
  Definition remap (values : list Q) (old_dirs new_dirs : list qvec) : option (list Q) :=
    let num_dirs := length old_dirs in
    match all_some (map (fun d => kernel_f d new_dirs) old_dirs) with
    | None => None
    | Some kernel =>
        let old_values := values in
        Some (fold_left (fun vs i =>
                fold_left (fun vs j => replace_nth i (nth j old_values 0 * nth j (nth i kernel []) 0) vs)
                  (seq 0 num_dirs) vs)
              (seq 0 num_dirs) values)
    end.
End Remap.
