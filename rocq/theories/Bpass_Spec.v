(** What a value read off a table must satisfy. *)
From Coq Require Import List Arith QArith.
Import ListNotations.
Local Open Scope Q_scope.

Definition increasing (bins : list Q) : Prop :=
  forall i j, (i < j)%nat -> (j < length bins)%nat -> nth i bins 0 < nth j bins 0.

(** Bins [i] and [i + 1] enclose [x]. *)
Definition enclosed (bins : list Q) (i : nat) (x : Q) : Prop :=
  (S i < length bins)%nat /\ nth i bins 0 <= x /\ x < nth (S i) bins 0.

(** [v] lies between the smallest and the largest of four numbers. *)
Definition between4 (a b c d v : Q) : Prop :=
  (a <= v \/ b <= v \/ c <= v \/ d <= v) /\ (v <= a \/ v <= b \/ v <= c \/ v <= d).

(** [x], or the end of the range of the bins (made narrower by a factor [s]) that is
    closest to it. *)
Definition limited (bins : list Q) (s x x' : Q) : Prop :=
  (x < nth 0 bins 0 * s -> x' == nth 0 bins 0 * s)
  /\ (nth (length bins - 1) bins 0 / s < x -> x' == nth (length bins - 1) bins 0 / s)
  /\ (nth 0 bins 0 * s <= x -> x <= nth (length bins - 1) bins 0 / s -> x' == x).

Definition entry (tab : list (list Q)) (i j : nat) : Q := nth j (nth i tab []) 0.

(** A table with one row for each of [n] values and [m] columns. *)
Definition table_size (n m : nat) (tab : list (list Q)) : Prop :=
  length tab = n /\ forall row, In row tab -> length row = m.
