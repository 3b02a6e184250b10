(** What an exchange is meant to deliver, independent of the protocol. *)
From Coq Require Import List Arith.
Import ListNotations.
From Verif Require Import DataByRank_Model Exchange_Model.

(** What [x] addressed to [y] in this exchange; nothing means an empty list. *)
Definition addressed {A} (d : dbr (list A)) (y : nat) : list A :=
  match nth_error d y with Some (Some l) => l | _ => [] end.

(** The value rank [y] has to obtain from an exchange in which rank [x] handed
    over [d x]: one list for each other rank, nothing for itself. *)
Definition delivered {A} (n_ranks : nat) (d : nat -> dbr (list A)) (y : nat)
    (got : dbr (list A)) : Prop :=
  length got = n_ranks
  /\ forall x, x < n_ranks ->
       nth_error got x = Some (if x =? y then None else Some (addressed (d x) y)).

(** Data is well formed for rank [x] when it names other existing ranks only. *)
Definition names_others {A} (n_ranks x : nat) (d : dbr (list A)) : Prop :=
  forall y l, nth_error d y = Some (Some l) -> y < n_ranks /\ y <> x.

(** ... and complete when it names all of them. *)
Definition names_all_others {A} (n_ranks x : nat) (d : dbr (list A)) : Prop :=
  forall y, y < n_ranks -> y <> x -> exists l, nth_error d y = Some (Some l).

(** All [R] exchanges of all ranks are over. *)
Definition finished {A} (n_ranks R : nat) (s : @state A) : Prop :=
  forall x, x < n_ranks -> ph s x = PDone /\ length (res s x) = R.
