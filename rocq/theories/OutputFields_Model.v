(** Model of the selection of the fields of a snapshot (src/io/output/parameters.rs 26-31 and 115-128,
    src/io/output/plugin.rs 73-188, src/io/output/attribute.rs, src/io/to_dataset.rs). *)
From Coq Require Import List String Bool.
Import ListNotations.
Local Open Scope string_scope.

(** A value of the parameter file, as far as it matters here. *)
Inductive node : Type := NNull | NText (text : string) | NSequence (items : list node) | NOther.
(** [Fields], parameters.rs 26-31. *)
Inductive fields : Type := All | Chosen (names : list string).

Fixpoint texts (l : list node) : option (list string) :=
  match l with
  | [] => Some []
  | NText s :: l' => match texts l' with Some r => Some (s :: r) | None => None end
  | _ :: _ => None
  end.
(** Reading [fields]: the default for a missing key is [All] (parameters.rs 61-62, 99-101). The enum is untagged (27), so serde
    tries the variants in order without looking at their names: a variant without data accepts null only, the other
    variant accepts sequences of strings. [None]: the parameters cannot be read and the program panics. *)
Definition read_fields (value : option node) : option fields :=
  match value with
  | None => Some All
  | Some NNull => Some All
  | Some (NSequence l) => match texts l with Some names => Some (Chosen names) | None => None end
  | Some _ => None
  end.

(** A type with an output plugin: its name, and whether it is an attribute (attribute.rs 31-49) or a data set of a component
    (to_dataset.rs). *)
Record output : Type := mkOutput { o_name : string; o_attribute : bool }.
(** [is_desired_field], parameters.rs 115-128; attributes are always desired. *)
Definition is_desired_field (f : fields) (o : output) : bool :=
  o_attribute o || match f with All => true | Chosen names => existsb (fun field => String.eqb field (o_name o)) names end.

(** The systems and names that the plugins add to the simulation of one rank. *)
Record sim : Type := mkSim { create_systems : list output; write_systems : list output; registered_fields : list string }.
Definition new_sim : sim := mkSim [] [] [].
(** [build_everywhere] and [build_on_main_rank] of [OutputPlugin], plugin.rs 141-157 and 167-174, with
    [add_dataset_creation_system_if_desired] (73-88). With the feature parallel-hdf5 every rank creates the data sets. The write
    system of an attribute does nothing (attribute.rs 41-43) and is left out. *)
Definition build_everywhere (parallel : bool) (f : fields) (s : sim) (o : output) : sim :=
  mkSim (if parallel && is_desired_field f o then create_systems s ++ [o] else create_systems s)
    (if is_desired_field f o && negb (o_attribute o) then write_systems s ++ [o] else write_systems s) (registered_fields s).
Definition build_on_main_rank (parallel : bool) (f : fields) (s : sim) (o : output) : sim :=
  mkSim (if negb parallel && is_desired_field f o then create_systems s ++ [o] else create_systems s)
    (write_systems s) (registered_fields s ++ [o_name o]).
Definition add_output (parallel main_rank : bool) (f : fields) (s : sim) (o : output) : sim :=
  let s := build_everywhere parallel f s o in if main_rank then build_on_main_rank parallel f s o else s.
Definition add_outputs (parallel main_rank : bool) (f : fields) (os : list output) : sim :=
  fold_left (add_output parallel main_rank f) os new_sim.

(** [verify_output_fields_system], plugin.rs 177-188: the fields for which an error is logged. *)
Definition unknown_fields (f : fields) (s : sim) : list string :=
  match f with
  | All => []
  | Chosen names => filter (fun field => negb (existsb (String.eqb field) (registered_fields s))) names
  end.
