(** What it means to write snapshots at regular intervals. *)
From Coq Require Import List Arith QArith.
Import ListNotations.
From Verif Require Import Timer_Model.
Local Open Scope Q_scope.

Fixpoint written (l : list (Q * option snapshot)) : list snapshot :=
  match l with
  | [] => []
  | (_, Some s) :: l' => s :: written l'
  | (_, None) :: l' => written l'
  end.

(** The time of the k-th output. *)
Definition due (first interval : Q) (k : nat) : Q := first + inject_Z (Z.of_nat k) * interval.

(** Step [i] of the trace is the first one whose time reaches [t]. *)
Definition first_reaching (trace : list (Q * option snapshot)) (t : Q) (i : nat) : Prop :=
  (exists x, nth_error trace i = Some x /\ t <= fst x)
  /\ forall j x, (j < i)%nat -> nth_error trace j = Some x -> fst x < t.

(** The time at the beginning of step [i], and whether the final time is reached there. *)
Definition time_before (trace : list (Q * option snapshot)) (i : nat) : Q :=
  match i with 0%nat => 0 | S j => fst (nth j trace (0, None)) end.
Definition final_reached (p : params) (trace : list (Q * option snapshot)) (i : nat) : Prop :=
  exists f, final_time p = Some f /\ f <= time_before trace i.
