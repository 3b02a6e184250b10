(** What an average over all cells is. *)
From Coq Require Import List QArith Arith.
From Verif Require Import TimeSeries_Model.
Import ListNotations.
Local Open Scope Q_scope.

(** [total f cells] is the sum of [f] over a list, [is_mean w x cells v]: [v] is the mean of [x] with weights [w]. *)
Fixpoint total {A} (f : A -> Q) (l : list A) : Q := match l with [] => 0 | a :: l => f a + total f l end.
Definition is_mean {A} (w x : A -> Q) (l : list A) (v : Q) : Prop := v * total w l == total (fun a => w a * x a) l.

(** The same number, or none in both cases. *)
Definition same_value (a b : option Q) : Prop :=
  match a, b with Some x, Some y => x == y | None, None => True | _, _ => False end.
Definition same_averages (a b : averages) : Prop :=
  same_value (ionization_mass a) (ionization_mass b) /\ same_value (ionization_volume a) (ionization_volume b) /\
  same_value (temperature_mass a) (temperature_mass b) /\ same_value (temperature_volume a) (temperature_volume b) /\
  same_value (rate_volume a) (rate_volume b) /\ same_value (weighted_rate_volume a) (weighted_rate_volume b).

Definition some_mean {A} (w x : A -> Q) (l : list A) (v : option Q) : Prop := exists q, v = Some q /\ is_mean w x l q.
