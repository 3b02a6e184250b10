(** What remapping must do, stated without the messages. *)
From Coq Require Import List Arith QArith.
Import ListNotations.

Notation point := (Q * Q * Q)%type.

Definition dist2 (p q : point) : Q :=
  match p, q with
  | (a, b, c), (x, y, z) => (a - x) ^ 2 + (b - y) ^ 2 + (c - z) ^ 2
  end%Q.

(** The search returns the index of a point at minimal distance. *)
Definition finds_nearest (nearest : list point -> point -> nat) : Prop :=
  forall ps q, ps <> [] ->
    exists p, nth_error ps (nearest ps q) = Some p /\ forall p', In p' ps -> (dist2 p q <= dist2 p' q)%Q.

(** [v] is the value of an element of [all] that is as close to [q] as any other. *)
Definition nearest_value {V} (all : list (point * V)) (q : point) (v : V) : Prop :=
  exists p, In (p, v) all /\ forall p' v', In (p', v') all -> (dist2 p q <= dist2 p' q)%Q.

(** The larger of two numbers. *)
Definition is_max (a b m : Q) : Prop := (a <= m)%Q /\ (b <= m)%Q /\ (m == a \/ m == b)%Q.

(** How one particle must change. *)
Definition remapped (all : list (point * (Q * Q))) (before after : nat * (point * (Q * Q))) : Prop :=
  fst after = fst before /\ fst (snd after) = fst (snd before)
  /\ exists v, nearest_value all (fst (snd before)) v
     /\ is_max (fst (snd (snd before))) (fst v) (fst (snd (snd after)))
     /\ is_max (snd (snd (snd before))) (snd v) (snd (snd (snd after))).
