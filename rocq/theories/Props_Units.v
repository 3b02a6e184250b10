(** C80, C81: the units of datasets. *)
From Coq Require Import List ZArith QArith String Lia.
From Verif Require Import Units_Model Units_Spec Units_Proofs.
Import ListNotations.
Local Open Scope Q_scope.

(** C80: a number in a dataset of Arepo is read as the quantity in SI units that it stands for, if it is read as a quantity of the
    right dimension and, for comoving quantities, the cosmology is known. *)
Theorem C80_physical_value : forall d set, written_as d set -> forall c a0 h0 x,
  ~ a0 == 0 -> ~ h0 == 0 -> ~ to_cgs d == 0 -> c = Cosmological a0 h0 \/ ~ comoving d ->
  exists v, read_value (Arepo c) set (physical_dimension d) x = Some v /\ v == physical d a0 h0 x.
Proof. exact arepo_value. Qed.
Print Assumptions C80_physical_value.

(** Read as anything else it is an error, and so are comoving quantities without a cosmology. *)
Theorem C80_wrong_dimension : forall d set, written_as d set -> forall c e x, e <> physical_dimension d -> read_value (Arepo c) set e x = None.
Proof. exact arepo_wrong_dimension. Qed.
Print Assumptions C80_wrong_dimension.
Theorem C80_no_cosmology : forall d set, written_as d set -> forall e x, comoving d -> read_value (Arepo NonCosmological) set e x = None.
Proof. exact arepo_no_cosmology. Qed.
Print Assumptions C80_no_cosmology.

(** A conversion factor of 0 is read as 1 in datasets without units, and is an error in all others. *)
Theorem C80_zero_factor : forall d set, written_as d set -> forall c x, to_cgs d == 0 ->
  (physical_dimension d = none /\ ~ comoving d -> exists v, read_value (Arepo c) set none x = Some v /\ v == x) /\
  (physical_dimension d <> none \/ comoving d -> forall e, read_value (Arepo c) set e x = None).
Proof. exact arepo_zero. Qed.
Print Assumptions C80_zero_factor.

(** Masses per volume, as in Arepo: 10^10 solar masses / h over (kpc / h)^3 comoving; at a = 1/2, h = 7/10 the number 2 stands for
    2 to_cgs * 1000 * h^2 / a^3 kg / m^3. *)
Definition density : arepo_dataset :=
  {| l_scaling := -3; m_scaling := 1; v_scaling := 0; a_scaling := -3; h_scaling := 2; to_cgs := 677 # 100 |}.
Definition density_attrs : attributes :=
  [("to_cgs", Real (677 # 100)); ("length_scaling", Int (-3)); ("mass_scaling", Int 1); ("velocity_scaling", Int 0); ("a_scaling", Int (-3)); ("h_scaling", Int 2)]%string.
Example C80_example : written_as density density_attrs /\ comoving density /\ physical_dimension density = mkDim (-3) 0 1 0 0 0 /\
  option_map Qred (read_value (Arepo (Cosmological (1 # 2) (7 # 10))) density_attrs (mkDim (-3) 0 1 0 0 0) 2) =
  Some (Qred (2 * (677 # 100) * 1000 * ((7 # 10) * (7 # 10)) * 8)).
Proof. split; [repeat split|]. split; [left; discriminate|]. split; vm_compute; reflexivity. Qed.
Example C80_example_velocity :
  let set := [("to_cgs", Real 100000); ("length_scaling", Int 0); ("mass_scaling", Int 0); ("velocity_scaling", Int 2); ("a_scaling", Int 0); ("h_scaling", Int 0)]%string in
  written_as {| l_scaling := 0; m_scaling := 0; v_scaling := 2; a_scaling := 0; h_scaling := 0; to_cgs := 100000 |} set /\
  option_map Qred (read_value (Arepo NonCosmological) set (mkDim 2 (-2) 0 0 0 0) 3) = Some 30.
Proof. split; [repeat split | vm_compute; reflexivity]. Qed.
Example C80_example_zero : exists set, written_as {| l_scaling := 0; m_scaling := 0; v_scaling := 0; a_scaling := 0; h_scaling := 0; to_cgs := 0 |} set.
Proof.
  exists [("to_cgs", Real 0); ("length_scaling", Int 0); ("mass_scaling", Int 0); ("velocity_scaling", Int 0); ("a_scaling", Int 0); ("h_scaling", Int 0)]%string.
  repeat split.
Qed.

(** C81: a quantity in a snapshot of the program is read back unchanged as a quantity of the same dimension, and as any other it is
    an error. *)
Theorem C81_round_trip : forall d, exists set, add_dimension_attrs d = Some set /\
  (forall x, exists v, read_value Default set (non_cosmological d) x = Some v /\ v == x) /\
  (forall e x, e <> non_cosmological d -> read_value Default set e x = None).
Proof. exact round_trip. Qed.
Print Assumptions C81_round_trip.
Example C81_example : non_cosmological (mkDim (-3) 0 1 0 0 0) = mkDim (-3) 0 1 0 0 0.
Proof. reflexivity. Qed.

(** The positions of the snapshot to remap from are scaled such that their comoving coordinates stay the same. *)
Theorem C81_remap_comoving : forall a1 h1 a0 h0 x, ~ a0 == 0 -> ~ a1 == 0 ->
  exists y, remap_coordinate (Cosmological a1 h1) a0 h0 x = Some y /\ y / a1 == x / a0.
Proof. exact remap_comoving. Qed.
Print Assumptions C81_remap_comoving.
Example C81_example_remap : option_map Qred (remap_coordinate (Cosmological (1 # 4) (7 # 10)) (1 # 2) (7 # 10) 3) = Some (3 # 2).
Proof. vm_compute. reflexivity. Qed.

(** Comoving quantities cannot be read back: what is written says that they are comoving, but the reader does not look. *)
Theorem C81_comoving_read_back_refuted : exists d set, add_dimension_attrs d = Some set /\
  read_int "scaling_a" set = Some (a d) /\ read_int "scaling_h" set = Some (h d) /\
  forall x, read_value Default set d x = None.
Proof.
  exists (mkDim 1 0 0 0 1 (-1)). destruct (round_trip (mkDim 1 0 0 0 1 (-1))) as (set & E & _ & N). exists set. split; [exact E|].
  injection E as <-. split; [reflexivity|]. split; [reflexivity|]. intros x. apply N. discriminate.
Qed.
Print Assumptions C81_comoving_read_back_refuted.

(** In a run without cosmology remapping always panics, as the snapshot is always taken to be cosmological. *)
Theorem C81_remap_without_cosmology_refuted : exists a0 h0 x, 0 < a0 /\ 0 < h0 /\ remap_coordinate NonCosmological a0 h0 x = None.
Proof. exists 1, (7 # 10), 3. repeat split. Qed.
Print Assumptions C81_remap_without_cosmology_refuted.
