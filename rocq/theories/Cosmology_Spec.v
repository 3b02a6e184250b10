(** Specification of the search and of the age of a flat universe. *)
From Coq Require Import QArith Qabs Reals.

(** [f] does not decrease on the interval. *)
Definition nondecreasing (f : Q -> Q) (min max : Q) : Prop :=
  forall x y, (min <= x)%Q -> (x <= y)%Q -> (y <= max)%Q -> (f x <= f y)%Q.

Local Open Scope R_scope.

(** The Friedmann equation of a flat universe with matter and a cosmological constant:
    the expansion rate, in units of its value today, at scale factor [a], and the change
    of time with the scale factor. *)
Definition expansion_rate (matter lambda a : R) : R := sqrt (matter / (a * a * a) + lambda).
Definition solves_friedmann (matter lambda : R) (t : R -> R) : Prop :=
  forall a, 0 < a -> derivable_pt_lim t a (1 / (a * expansion_rate matter lambda a)).
