(** Model of the solver of linear equations in [/repo/src/voronoi/math/utils.rs], with
    rational numbers: [PrecisionFloat] is [num::BigRational]. A matrix is the list of its
    rows; loops that assign entries of a matrix give the list of the new entries. *)
From Coq Require Import List Arith QArith Qabs.
Import ListNotations.
Local Open Scope Q_scope.

Notation matrix := (list (list Q)).
Definition get (a : matrix) (i j : nat) : Q := nth j (nth i a []) 0.
Definition build (m n : nat) (f : nat -> nat -> Q) : matrix :=
  map (fun i => map (f i) (seq 0 n)) (seq 0 m).

(** [(h..M).max_by(..)], utils.rs 28-30: the last one of the rows with the largest
    absolute value in column [k]. *)
Definition pivot_row (a : matrix) (m h k : nat) : nat :=
  fold_left (fun best i => if Qle_bool (Qabs (get a best k)) (Qabs (get a i k)) then i else best)
            (seq (h + 1) (m - (h + 1))) h.

(** [swap_rows], 49-59. *)
Definition swap_rows (m n : nat) (a : matrix) (r1 r2 : nat) : matrix :=
  build m n (fun i j => get a (if (i =? r1)%nat then r2 else if (i =? r2)%nat then r1 else i) j).

(** The elimination of column [k] below row [h], 35-41. *)
Definition eliminate (m n : nat) (a : matrix) (h k : nat) : matrix :=
  build m n (fun i j =>
    if (i <=? h)%nat then get a i j
    else if (j <? k)%nat then get a i j
    else if (j =? k)%nat then 0
    else get a i j - get a h j * (get a i k / get a h k)).

(** The loop of [solve_system_of_equations], 27-45. *)
Fixpoint eliminate_all (fuel m n : nat) (a : matrix) (h k : nat) : matrix :=
  match fuel with
  | O => a
  | S fuel' =>
      if ((h <? m) && (k <? n))%nat%bool then
        let i_max := pivot_row a m h k in
        if Qeq_bool (get a i_max k) 0 then eliminate_all fuel' m n a h (k + 1)
        else eliminate_all fuel' m n (eliminate m n (swap_rows m n a h i_max) h k) (h + 1) (k + 1)
      else a
  end.

(** [backward_substitution], 61-71, for the rows below [i] with the results [xs] of the
    others; [None] is the division by zero of the rational numbers. *)
Fixpoint backward (m : nat) (a : matrix) (i : nat) (xs : list Q) : option (list Q) :=
  match i with
  | O => Some xs
  | S i' =>
      let v := fold_left (fun acc j => acc - get a i' j * nth (j - (i' + 1)) xs 0)
                         (seq (i' + 1) (m - (i' + 1))) (get a i' m) in
      if Qeq_bool (get a i' i') 0 then None
      else backward m a i' (v / get a i' i' :: xs)
  end.
Definition backward_substitution (m : nat) (a : matrix) : option (list Q) := backward m a m [].

(** [solve_system_of_equations], 23-47. The fuel suffices as [k] grows with every step. *)
Definition solve_system_of_equations (m : nat) (a : matrix) : option (list Q) :=
  backward_substitution m (eliminate_all (m + 1) m (m + 1) a 0 0).
