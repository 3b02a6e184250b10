(** What the rates of the chemistry have to satisfy, without the model's
    derivatives and changes. *)
From Coq Require Import Reals.
Open Scope R_scope.

(** [g] is the derivative of [f] at all positive numbers. *)
Definition derivative_of (f g : R -> R) : Prop :=
  forall t, 0 < t -> derivable_pt_lim f t (g t).

(** The change of the ionized fraction per time of hydrogen with [n]
    atoms per volume: ionization by electrons and photons of the neutral
    atoms, recombination of the ionized ones; every ionized atom gives
    one electron. *)
Definition balance (alpha beta : R -> R) (n photo x t : R) : R :=
  (beta t * (n * x) + photo) * (1 - x) - alpha t * (n * x) * x.

(** The temperature after the ionized fraction changed from [x] to [y] at
    constant energy: the energy is proportional to the number of
    particles times the temperature. *)
Definition same_energy (x t y t' : R) : Prop := (1 + y) * t' = (1 + x) * t.

(** One step of the linearised backward Euler method for a right-hand
    side with value [f] and derivative [f']. *)
Definition implicit_step (f f' timestep change : R) : Prop :=
  change = timestep * (f + f' * change).
