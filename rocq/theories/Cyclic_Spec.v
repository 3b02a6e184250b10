(** Rings. *)
From Coq Require Import List Arith Permutation.
Import ListNotations.

(** The pairs of neighbours around the closed ring [l]. *)
Definition around {A} (l : list A) : list (A * A) :=
  match l with
  | [] => []
  | a :: l' => combine l (l' ++ [a])
  end.

(** Every one of the [n] items is related to exactly two others. *)
Definition two_related (R : nat -> nat -> Prop) (n : nat) : Prop :=
  forall i, i < n -> exists a b, a <> b /\ a <> i /\ b <> i /\ a < n /\ b < n
    /\ forall j, j < n -> j <> i -> (R i j <-> j = a \/ j = b).

(** All items can be reached from the first one. *)
Definition connected (R : nat -> nat -> Prop) (n : nat) : Prop :=
  forall P : nat -> Prop, P 0 ->
    (forall i j, i < n -> j < n -> i <> j -> P i -> R i j -> P j) ->
    forall i, i < n -> P i.
