(** C102: the names of snapshots, of their files and of the log files. *)
From Coq Require Import String List Arith QArith ZArith Lia.
Import ListNotations.
From Verif Require Import OutputNames_Model OutputNames_Spec OutputNames_Proofs.
Local Open Scope nat_scope.

(** Different snapshots or files never have the same path, whatever the padding and the logarithm are. *)
Theorem C102_paths_distinct log10 padding files snapshot index snapshot' index' :
  file_path log10 padding files snapshot index = file_path log10 padding files snapshot' index' -> snapshot = snapshot' /\ index = index'.
Proof. exact (paths_distinct log10 padding files snapshot index snapshot' index'). Qed.
Print Assumptions C102_paths_distinct.

(** Two ranks never write to the same log file. *)
Theorem C102_logs_distinct log10 ranks rank rank' : log_file log10 ranks rank = log_file log10 ranks rank' -> rank = rank'.
Proof. exact (logs_distinct log10 ranks rank rank'). Qed.
Print Assumptions C102_logs_distinct.

(** The names of the files of a snapshot have the same length, and sorted by name they are in the order of their index. *)
Theorem C102_files_sorted log10 files i j : not_too_small log10 -> i < files -> j < files ->
  (before (file_name log10 files i) (file_name log10 files j) <-> i < j) /\
  List.length (file_name log10 files i) = List.length (file_name log10 files j).
Proof. exact (files_sorted log10 files i j). Qed.
Print Assumptions C102_files_sorted.

Theorem C102_logs_sorted log10 ranks i j : not_too_small log10 -> i < ranks -> j < ranks ->
  (before (log_file log10 ranks i) (log_file log10 ranks j) <-> i < j) /\
  List.length (log_file log10 ranks i) = List.length (log_file log10 ranks j).
Proof. exact (logs_sorted log10 ranks i j). Qed.
Print Assumptions C102_logs_sorted.

(** Snapshots sorted by name are in the order of their number while the numbers fit into the padding. *)
Theorem C102_snapshots_sorted padding i j : 1 <= padding -> i < 10 ^ padding -> j < 10 ^ padding ->
  before (snapshot_name padding i) (snapshot_name padding j) <-> i < j.
Proof. exact (snapshots_sorted padding i j). Qed.
Print Assumptions C102_snapshots_sorted.

(** Beyond, they are not: with the default padding of three, snapshot 1000 is sorted before snapshot 999. *)
Theorem C102_all_snapshots_sorted_refuted : exists i j, i < j /\ before (snapshot_name 3 j) (snapshot_name 3 i).
Proof. exists 999, 1000. split; [lia|]. vm_compute. left. lia. Qed.
Print Assumptions C102_all_snapshots_sorted_refuted.

Example C102_example_log10 : not_too_small floor_log10.
Proof. exact floor_log10_ok. Qed.
(** 7 of 10 files, 7 of 120 ranks, snapshots 5 and 1234. *)
Example C102_example : file_name floor_log10 10 7 = codes "07.hdf5" /\ log_file floor_log10 120 7 = codes "logs/rank_007.log" /\
  snapshot_name 3 5 = codes "005" /\ snapshot_name 3 1234 = codes "1234".
Proof. repeat split. Qed.
(** A logarithm that is slightly too small at a power of ten does no harm. *)
Example C102_example_low : file_name (fun _ => 29 # 10) 1000 999 = codes "999.hdf5".
Proof. reflexivity. Qed.
