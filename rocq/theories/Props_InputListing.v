(** C103: input files found in directories. *)
From Coq Require Import List String Permutation Arith.
Import ListNotations.
From Verif Require Import FileDist_Model InputListing_Model InputListing_Spec InputListing_Proofs.

(** The input files are the given files and the files with the extension hdf5 in the given directories. *)
Theorem C103_files {path} (look : path -> place path) paths files : all_input_files look paths = Some files ->
  forall f, In f files <-> input_file look paths f.
Proof. exact (files_exact look paths files). Qed.
Print Assumptions C103_files.

(** If all ranks get the same order of a directory, together they read every entry of every file once. *)
Theorem C103_same_order (path A : Type) (look : path -> place path) paths files (content : path -> list A) n :
  all_input_files look paths = Some files -> 1 <= n -> read_by_all (read_input look paths content n) n (flat_map content files).
Proof. exact (same_listing A look paths files content n). Qed.
Print Assumptions C103_same_order.

(** Which order that is does not change the set of entries. *)
Theorem C103_order_irrelevant (path A : Type) (look look' : path -> place path) paths files (content : path -> list A) n :
  all_input_files look paths = Some files -> (forall p, same_but_order (look p) (look' p)) -> 1 <= n ->
  exists all all', read_by_all (read_input look paths content n) n all /\ read_by_all (read_input look' paths content n) n all' /\
    Permutation all all'.
Proof. exact (order_irrelevant A look look' paths files content n). Qed.
Print Assumptions C103_order_irrelevant.

(** Data sets read with the same order stay together: if the entries of the files are rows of several columns, the entries of
    one column read by a rank are that column of the rows that the rank reads. *)
Theorem C103_rows_together (path A B : Type) (column : A -> B) (look : path -> place path) paths content n rank :
  read_input look paths (fun p => map column (content p)) n rank = option_map (map column) (read_input look paths content n rank).
Proof. exact (rows_together A B column look paths content n rank). Qed.
Print Assumptions C103_rows_together.

(** The order of [read_dir] is not specified and not sorted by the program. If two ranks get different orders, an entry of an
    input file is read by no rank. *)
Theorem C103_any_order_refuted : exists (looks : nat -> nat -> place nat) (content : nat -> list nat) num_ranks,
  (forall r r' p, same_but_order (looks r p) (looks r' p)) /\
  exists lost, (exists f, input_file (looks 0) [0] f /\ In lost (content f)) /\
  forall rank, rank < num_ranks -> exists out, read_input (looks rank) [0] content num_ranks rank = Some out /\ ~ In lost out.
Proof. exact orders_differ. Qed.
Print Assumptions C103_any_order_refuted.

Example C103_example : all_input_files (two_files true) [0; 5] = Some [2; 1; 5] /\
  map (read_input (two_files true) [0; 5] (fun f => repeat f f) 2) [0; 1] = [Some [2; 2; 1; 5]; Some [5; 5; 5; 5]].
Proof. split; reflexivity. Qed.
Example C103_example_order : forall p, same_but_order (two_files false p) (two_files true p).
Proof. intros [|p]; cbn; [|exact I]. eapply perm_trans; [apply perm_swap|]. apply perm_skip, perm_swap. Qed.
