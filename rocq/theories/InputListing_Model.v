(** Model of the choice of the input files (src/io/input/mod.rs 72-100) and of the reading of data sets from them. *)
From Coq Require Import List String Bool Arith.
Import ListNotations.
From Verif Require Import FileDist_Model.

Section Listing.
  Context {path : Type}.
  (** An entry of a directory: [entry.path()], its extension, and whether it is a file. *)
  Record dir_entry : Type := mkEntry { e_path : path; e_extension : option string; e_is_file : bool }.
  (** What a path is; the entries of a directory are in the order of [fs::read_dir], which the operating system chooses. *)
  Inductive place : Type := File | Directory (entries : list dir_entry) | Missing.

  (** [get_file_or_all_hdf5_files_in_path_if_dir], io/input/mod.rs 72-92; [None] is a panic. *)
  Definition is_hdf5 (e : dir_entry) : bool :=
    match e_extension e with Some ext => e_is_file e && String.eqb ext "hdf5" | None => false end.
  Definition get_files (look : path -> place) (p : path) : option (list path) :=
    match look p with
    | File => Some [p]
    | Directory entries => Some (map e_path (filter is_hdf5 entries))
    | Missing => None
    end.
  (** [all_input_files], io/input/mod.rs 95-99. *)
  Fixpoint all_input_files (look : path -> place) (paths : list path) : option (list path) :=
    match paths with
    | [] => Some []
    | p :: ps => match get_files look p, all_input_files look ps with Some a, Some b => Some (a ++ b) | _, _ => None end
    end.

  (** [Reader::split_between_ranks] and [read_dataset], io/input/mod.rs 182-191 and 234-243: every rank looks at the
      directories itself. [content] are the entries of the data set in a file, empty if the file lacks it. *)
  Definition read_input {A : Type} (look : path -> place) (paths : list path) (content : path -> list A) (num_ranks rank : nat)
    : option (list A) :=
    match all_input_files look paths with
    | None => None
    | Some files => read_dataset (map content files) num_ranks rank
    end.
End Listing.
Arguments dir_entry : clear implicits.
Arguments place : clear implicits.
