(** C104: the selection of the fields of a snapshot. *)
From Coq Require Import List String.
Import ListNotations.
From Verif Require Import OutputFields_Model OutputFields_Spec OutputFields_Proofs.
Local Open Scope string_scope.

(** A rank writes the data sets of exactly the components that are wanted. The main rank, or every rank with parallel-hdf5, creates
    exactly these data sets and all attributes. *)
Theorem C104_selection parallel main_rank f outputs o :
  (In o (write_systems (add_outputs parallel main_rank f outputs)) <-> In o outputs /\ o_attribute o = false /\ wanted f (o_name o)) /\
  (In o (create_systems (add_outputs parallel main_rank f outputs)) <->
     (parallel = true \/ main_rank = true) /\ In o outputs /\ (o_attribute o = true \/ wanted f (o_name o))).
Proof. exact (selection parallel main_rank f outputs o). Qed.
Print Assumptions C104_selection.

(** The data sets created are the data sets written by each rank, in the same order. *)
Theorem C104_created_as_written parallel main_rank f outputs :
  filter (fun o => negb (o_attribute o)) (create_systems (add_outputs parallel true f outputs)) =
  write_systems (add_outputs parallel main_rank f outputs).
Proof. exact (same_order parallel main_rank f outputs). Qed.
Print Assumptions C104_created_as_written.

(** An error is logged for exactly the chosen fields that do not exist. *)
Theorem C104_reported parallel names outputs field :
  In field (unknown_fields (Chosen names) (add_outputs parallel true (Chosen names) outputs)) <->
  In field names /\ ~ exists o, In o outputs /\ o_name o = field.
Proof. exact (reported parallel names outputs field). Qed.
Print Assumptions C104_reported.

(** All fields are written exactly if the parameter is missing or null; a list of names is read as it is; nothing else can be read. *)
Theorem C104_readable value f : read_fields value = Some f <->
  (value = None \/ value = Some NNull) /\ f = All \/ exists names, value = Some (NSequence (map NText names)) /\ f = Chosen names.
Proof. exact (readable value f). Qed.
Print Assumptions C104_readable.

(** The documented value "all" (parameters.rs 57-60) cannot be read. *)
Theorem C104_documented_values_refuted : exists value, value = NText "all" /\ read_fields (Some value) = None.
Proof. exists (NText "all"). split; reflexivity. Qed.
Print Assumptions C104_documented_values_refuted.

Example C104_example :
  let outputs := [mkOutput "position" false; mkOutput "time" true; mkOutput "density" false] in
  let f := Chosen ["density"; "velocity"] in
  create_systems (add_outputs false true f outputs) = [mkOutput "time" true; mkOutput "density" false] /\
  write_systems (add_outputs false false f outputs) = [mkOutput "density" false] /\
  create_systems (add_outputs false false f outputs) = [] /\
  unknown_fields f (add_outputs false true f outputs) = ["velocity"].
Proof. repeat split. Qed.
