(** What the mirrors of entities have to be, independent of the model: a function of what was sent. *)
From Coq Require Import List NArith.
Import ListNotations.

Section Spec.
  (** Entities of the sender, entities of the receiver, and data. *)
  Context {S R T : Type}.

  (** What happens: rank [x] sends the data of one of its entities to rank [y], or all ranks receive. *)
  Inductive sync_op := Send (x y : nat) (e : S) (d : T) | Round.

  (** [said ops x y e d]: since the last round rank [x] has sent something of [e] to [y], last of all [d]. *)
  Inductive said : list sync_op -> nat -> nat -> S -> T -> Prop :=
  | said_now ops x y e d : said (ops ++ [Send x y e d]) x y e d
  | said_before ops x y e d x' y' e' d' : said ops x y e d -> (x', y', e') <> (x, y, e) -> said (ops ++ [Send x' y' e' d']) x y e d.

  (** [told ops x y e d]: the same of the time before the last round. *)
  Inductive told : list sync_op -> nat -> nat -> S -> T -> Prop :=
  | told_round ops x y e d : said ops x y e d -> told (ops ++ [Round]) x y e d
  | told_send ops x y e d x' y' e' d' : told ops x y e d -> told (ops ++ [Send x' y' e' d']) x y e d.

  (** [live] has exactly one entity for each entity of another rank that satisfies [said], with its data. *)
  Definition exact_mirrors (ranks : nat) (said : nat -> S -> T -> Prop) (mirror : nat -> S -> R -> Prop) (live : list (R * T)) : Prop :=
    NoDup (map fst live)
    /\ (forall x e d, x < ranks -> said x e d -> exists e', mirror x e e' /\ In (e', d) live)
    /\ (forall e' d, In (e', d) live -> exists x e, x < ranks /\ mirror x e e' /\ said x e d)
    /\ (forall x e x' e' r, mirror x e r -> mirror x' e' r -> x = x' /\ e = e')
    /\ (forall x e r r', mirror x e r -> mirror x e r' -> r = r').

  (** No rank sends after a round. *)
  Definition sends_first (ops : list sync_op) : Prop := exists l m, ops = l ++ repeat Round m /\ ~ In Round l.
End Spec.
Arguments sync_op : clear implicits.
