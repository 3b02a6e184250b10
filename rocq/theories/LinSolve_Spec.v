(** Systems of linear equations. *)
From Coq Require Import List Arith QArith.
Import ListNotations.
Local Open Scope Q_scope.

Fixpoint sum (n : nat) (f : nat -> Q) : Q :=
  match n with O => 0 | S n' => sum n' f + f n' end.

(** [x] satisfies all [m] equations; the last column is the right hand side. *)
Definition solves (m : nat) (a : list (list Q)) (x : nat -> Q) : Prop :=
  forall i, (i < m)%nat -> sum m (fun j => nth j (nth i a []) 0 * x j) == nth m (nth i a []) 0.

(** Only zero satisfies the equations with right hand side zero. *)
Definition nonsingular (m : nat) (a : list (list Q)) : Prop :=
  forall x, (forall i, (i < m)%nat -> sum m (fun j => nth j (nth i a []) 0 * x j) == 0) ->
  forall j, (j < m)%nat -> x j == 0.

(** [m] rows with [n] columns. *)
Definition has_size (m n : nat) (a : list (list Q)) : Prop :=
  length a = m /\ forall row, In row a -> length row = n.
