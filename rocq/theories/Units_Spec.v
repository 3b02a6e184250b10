(** What the units of a dataset mean. *)
From Coq Require Import ZArith QArith String.
From Verif Require Import Units_Model.
Local Open Scope Q_scope.

(** The units of the cgs system in terms of those of the SI: 1 cm = 0.01 m, 1 g = 0.001 kg, and the second. *)
Definition centimetre : Q := 1 # 100.
Definition gram : Q := 1 # 1000.
Definition second : Q := 1.
(** A number [x] in a dataset of Arepo stands for [x * to_cgs] times [cm^l g^m (cm/s)^v a^e h^f]. *)
Record arepo_dataset := { l_scaling : Z; m_scaling : Z; v_scaling : Z; a_scaling : Z; h_scaling : Z; to_cgs : Q }.
Definition written_as (d : arepo_dataset) (set : attributes) : Prop :=
  read_int "length_scaling" set = Some (l_scaling d) /\ read_int "mass_scaling" set = Some (m_scaling d) /\
  read_int "velocity_scaling" set = Some (v_scaling d) /\ read_int "a_scaling" set = Some (a_scaling d) /\
  read_int "h_scaling" set = Some (h_scaling d) /\ read_real "to_cgs" set = Some (to_cgs d).
Definition physical (d : arepo_dataset) (a0 h0 x : Q) : Q :=
  x * to_cgs d * (centimetre ^ l_scaling d * gram ^ m_scaling d * (centimetre / second) ^ v_scaling d) * a0 ^ a_scaling d * h0 ^ h_scaling d.
(** Its dimension: a velocity is a length over a time. *)
Definition physical_dimension (d : arepo_dataset) : dimension :=
  mkDim (l_scaling d + v_scaling d) (- v_scaling d) (m_scaling d) 0 0 0.
Definition comoving (d : arepo_dataset) : Prop := a_scaling d <> 0%Z \/ h_scaling d <> 0%Z.
