(** What the start-up has to achieve, without the model's helpers. *)
From Coq Require Import QArith List Sorting.Permutation.
From Verif Require Import StartUp_Model Sources_Model Bpass_Model.
Import ListNotations.
Open Scope Q_scope.

(** An order that bevy's scheduler may choose: each system of the stage
    runs once, and no system runs before one it was put after. *)
Definition allowed (st : stage) (order : list system) : Prop :=
  Permutation order (systems_of st)
  /\ forall a b l1 l2, In (a, b) after_pairs ->
       order = l1 ++ b :: l2 -> ~ In a l2.

(** [x] is the number between [lo] and [hi] that is nearest to [y]. *)
Definition nearest_within (lo hi y x : Q) : Prop :=
  lo <= x <= hi
  /\ (y <= lo -> x == lo) /\ (hi <= y -> x == hi)
  /\ (lo <= y <= hi -> x == y).

(** The energy per volume of an ideal gas of [n] particles per volume. *)
Definition ideal_gas (kb gamma n t e : Q) : Prop :=
  (gamma - 1) * e == n * kb * t.

(** A star of the initial conditions, and its source. *)
Record star : Type := Star {
  st_pos : pos; st_metallicity : Q; st_scale : Q; st_mass : Q }.
Definition formed (st : star) : bool :=
  if Qlt_le_dec 0 (st_scale st) then true else false.
Definition source_of (age : Q -> option Q) (escape : Q) (st : star)
    (s : Sources_Model.source) : Prop :=
  s_pos s = st_pos st
  /\ exists a r, age (st_scale st) = Some a
     /\ bpass_lookup a (st_metallicity st) (st_mass st) = Some r
     /\ s_rate s == r * escape.
