(** Which files are input files, and listings that differ in the order only. *)
From Coq Require Import List String Permutation.
Import ListNotations.
From Verif Require Import InputListing_Model.

Definition input_file {path} (look : path -> place path) (paths : list path) (f : path) : Prop :=
  exists p, In p paths /\ ((look p = File /\ f = p) \/
    exists entries e, look p = Directory entries /\ In e entries /\ e_path e = f /\ e_is_file e = true /\ e_extension e = Some "hdf5"%string).
Definition same_but_order {path} (a b : place path) : Prop :=
  match a, b with
  | File, File | Missing, Missing => True
  | Directory l, Directory m => Permutation l m
  | _, _ => False
  end.
(** What all ranks have read. *)
Definition read_by_all {A : Type} (result : nat -> option (list A)) (num_ranks : nat) (all : list A) : Prop :=
  exists outs, List.length outs = num_ranks /\ List.concat outs = all /\ forall rank, rank < num_ranks -> result rank = nth_error outs rank.
