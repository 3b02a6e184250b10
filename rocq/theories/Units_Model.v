(** Units of datasets on input and output. Numbers are rational instead of floating point. *)
From Coq Require Import List ZArith QArith String Bool.
Import ListNotations.
Local Open Scope Z_scope.

(** src/units/dimension.rs:8-16 [Dimension]. *)
Record dimension := mkDim { length : Z; time : Z; mass : Z; temperature : Z; h : Z; a : Z }.
(** src/units/dimension.rs:18-25 [NONE]. *)
Definition none : dimension := mkDim 0 0 0 0 0 0.
Definition dim_eqb (d e : dimension) : bool :=
  (length d =? length e) && (time d =? time e) && (mass d =? mass e) && (temperature d =? temperature e) && (h d =? h e) && (a d =? a e).

(** src/units/dimension.rs:3-6. *)
Definition mass_to_si : Q := 1.
Definition length_to_si : Q := 1.
Definition time_to_si : Q := 1.
Definition temperature_to_si : Q := 1.
(** src/units/dimension.rs:32-46 [base_conversion_factor]. *)
Definition base_conversion_factor (d : dimension) : Q :=
  (length_to_si ^ length d * time_to_si ^ time d * mass_to_si ^ mass d * temperature_to_si ^ temperature d)%Q.
(** src/units/dimension.rs:48-57 [non_cosmological]. *)
Definition non_cosmological (d : dimension) : dimension := mkDim (length d) (time d) (mass d) (temperature d) 0 0.

(** The attributes of a dataset of an HDF5 file, integers and floating point numbers; names are unique. *)
Inductive value := Int (z : Z) | Real (q : Q).
Definition attributes := list (string * value).
Definition find (name : string) (l : attributes) : option value :=
  option_map snd (List.find (fun x => String.eqb (fst x) name) l).
(** [set.attr(ident).expect(..).read_scalar().unwrap()]: [None] is a panic, if there is no such attribute or it has another type. *)
Definition read_int (name : string) (l : attributes) : option Z :=
  match find name l with Some (Int z) => Some z | _ => None end.
Definition read_real (name : string) (l : attributes) : option Q :=
  match find name l with Some (Real q) => Some q | _ => None end.
(** [new_attr().create(name).unwrap()] and [write_scalar]: [None] is a panic, the attribute exists. *)
Definition create (name : string) (v : value) (l : attributes) : option attributes :=
  match find name l with Some _ => None | None => Some (l ++ [(name, v)]) end.

Definition bind {A B} (x : option A) (f : A -> option B) : option B := match x with Some y => f y | None => None end.
Notation "'let?' x := e 'in' f" := (bind e (fun x => f)) (at level 200, x name, right associativity).

(** src/cosmology.rs:14-24 [Cosmology]; the further parameters are not needed here. *)
Inductive cosmology := Cosmological (a h : Q) | NonCosmological.
(** src/cosmology.rs:56-61 [get_factor]. *)
Definition get_factor (c : cosmology) (d : dimension) : option Q :=
  match c with
  | Cosmological a0 h0 => Some (a0 ^ (- a d) * h0 ^ (- h d))%Q
  | NonCosmological => None
  end.
(** src/cosmology.rs:42-47 [scale_factor]. *)
Definition scale_factor (c : cosmology) : Q := match c with Cosmological a0 _ => a0 | NonCosmological => 1 end.

(** src/arepo_postprocess/unit_reader.rs:67-69 [is_cosmological]. *)
Definition is_cosmological (d : dimension) : bool := negb (a d =? 0) || negb (h d =? 0).
(** src/arepo_postprocess/unit_reader.rs:72-95 [read_raw_dimension], with the names of lines 15-20. *)
Definition read_raw_dimension (set : attributes) : option dimension :=
  let? l := read_int "length_scaling" set in
  let? m := read_int "mass_scaling" set in
  let? v := read_int "velocity_scaling" set in
  let? a := read_int "a_scaling" set in
  let? h := read_int "h_scaling" set in
  Some (mkDim (l + v) (- v) m 0 h a).
(** src/arepo_postprocess/unit_reader.rs:54-64 [get_cosmological_factor], [check_cosmology_available]. *)
Definition get_cosmological_factor (c : cosmology) (d : dimension) : option Q := get_factor c d.
(** src/arepo_postprocess/unit_reader.rs:99-118 [ArepoUnitReader::read_scale_factor]. *)
Definition arepo_scale_factor (c : cosmology) (set : attributes) : option Q :=
  let? d := read_raw_dimension set in
  let? cosmology_scale_factor := (if is_cosmological d then (let? f := get_cosmological_factor c d in Some (1 / f)%Q) else Some 1%Q) in
  let cgs_to_si := ((1 # 100) ^ length d * (1 # 1000) ^ mass d)%Q in
  let? cgs := read_real "to_cgs" set in
  let? cgs := (if Qeq_bool cgs 0 then (if dim_eqb d none then Some 1%Q else None) else Some cgs) in
  Some (cosmology_scale_factor * cgs_to_si * cgs)%Q.
(** src/arepo_postprocess/unit_reader.rs:120-128 [ArepoUnitReader::read_dimension]. *)
Definition arepo_dimension (c : cosmology) (set : attributes) : option dimension :=
  let? d := read_raw_dimension set in
  if is_cosmological d then match c with Cosmological _ _ => Some (non_cosmological d) | NonCosmological => None end else Some d.

(** src/io/unit_reader.rs:39-44 [DefaultUnitReader::read_scale_factor], the name of src/io/output/mod.rs:42. *)
Definition default_scale_factor (set : attributes) : option Q := read_real "scale_factor_si" set.
(** src/io/unit_reader.rs:46-67 [DefaultUnitReader::read_dimension], the names of src/io/output/mod.rs:43-46. *)
Definition default_dimension (set : attributes) : option dimension :=
  let? l := read_int "scaling_length" set in
  let? m := read_int "scaling_mass" set in
  let? t := read_int "scaling_time" set in
  let? temp := read_int "scaling_temperature" set in
  Some (mkDim l t m temp 0 0).

(** The three implementations of [UnitReader]; the last is src/io/unit_reader.rs:72-80 [IdReader]. *)
Inductive reader := Arepo (c : cosmology) | Default | Id.
Definition read_scale_factor (r : reader) (set : attributes) : option Q :=
  match r with Arepo c => arepo_scale_factor c set | Default => default_scale_factor set | Id => Some 1%Q end.
Definition read_dimension (r : reader) (set : attributes) : option dimension :=
  match r with Arepo c => arepo_dimension c set | Default => default_dimension set | Id => Some none end.

(** src/io/input/mod.rs:262-309 [read_region_chunked], [get_dataset_and_conversion_factor_for_file], [convert_dataset_units] for one
    value of a type with dimension [d]: the factor is multiplied to the value (src/components.rs:93-96). For types without
    a unit which ignore the factor see [read_grid]. *)
Definition read_value (r : reader) (set : attributes) (d : dimension) (raw : Q) : option Q :=
  let factor_read := base_conversion_factor d in
  let? factor_written := read_scale_factor r set in
  let? found := read_dimension r set in
  if dim_eqb found d then Some (raw * (factor_written / factor_read))%Q else None.

(** src/io/output/mod.rs:317-353 [add_dimension_attrs], [write_dimension] on a new dataset. *)
Definition add_dimension_attrs (d : dimension) : option attributes :=
  let? s := create "scale_factor_si" (Real (base_conversion_factor d)) [] in
  let? s := create "scaling_length" (Int (length d)) s in
  let? s := create "scaling_time" (Int (time d)) s in
  let? s := create "scaling_mass" (Int (mass d)) s in
  let? s := create "scaling_temperature" (Int (temperature d)) s in
  let? s := create "scaling_h" (Int (h d)) s in
  create "scaling_a" (Int (a d)) s.

(** src/arepo_postprocess/remap.rs:355-378 [get_scale_factor_difference]. *)
Definition scale_factor_difference (d : dimension) (c remap : cosmology) : option Q :=
  match c with
  | Cosmological _ _ =>
      match remap with
      | Cosmological _ _ => Some ((scale_factor c / scale_factor remap) ^ length d)%Q
      | NonCosmological => None
      end
  | NonCosmological => match remap with Cosmological _ _ => None | NonCosmological => Some 1%Q end
  end.
(** src/arepo_postprocess/remap.rs:105-121 in [read_remap_data], one coordinate of a position of the first snapshot, whose
    attributes are [a0] and [h0]; [Length::dimension()] is a length. *)
Definition remap_coordinate (c : cosmology) (a0 h0 x : Q) : option Q :=
  let? factor := scale_factor_difference (mkDim 1 0 0 0 0 0) c (Cosmological a0 h0) in Some (x * factor)%Q.
