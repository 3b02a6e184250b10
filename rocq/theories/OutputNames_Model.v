(** Model of the names of snapshots, of the files of a snapshot and of the log files (src/io/output/mod.rs 142-176,
    src/simulation_builder.rs 252-261). A name is the list of the codes of its characters. *)
From Coq Require Import List Arith QArith Qround ZArith String Ascii.
Import ListNotations.
Local Open Scope nat_scope.

Fixpoint codes (s : string) : list nat :=
  match s with EmptyString => [] | String c s' => nat_of_ascii c :: codes s' end.

(** Decimal digits as written by [format!], the highest first. Fuel above the number is enough. *)
Fixpoint digits_from (fuel n : nat) : list nat :=
  match fuel with
  | 0 => []
  | S fuel => if n <? 10 then [n] else digits_from fuel (n / 10) ++ [n mod 10]
  end.
Definition digits (n : nat) : list nat := digits_from (S n) n.
(** [format!("{:0padding$}", n)]: zeros in front up to the width; longer numbers are not cut. *)
Definition padded (padding n : nat) : list nat :=
  map (fun d => nat_of_ascii "0" + d) (repeat 0 (padding - List.length (digits n)) ++ digits n).

(** [get_snapshot_dir], io/output/mod.rs 142-149: the last component. *)
Definition snapshot_name (snapshot_padding snapshot_num : nat) : list nat := padded snapshot_padding snapshot_num.

Section Width.
  (** [(n as f64).log10()] of the mathematical library, as a rational number. *)
  Variable log10 : nat -> Q.
  (** io/output/mod.rs 157 and simulation_builder.rs 258: [floor() as usize] is zero for negative numbers. *)
  Definition number_width (n : nat) : nat := Z.to_nat (Qfloor (log10 n)) + 1.
  (** io/output/mod.rs 164-168. *)
  Definition file_name (num_output_files file_index : nat) : list nat :=
    padded (number_width num_output_files) file_index ++ codes ".hdf5".
  (** [get_output_files], io/output/mod.rs 151-176: directory and file of one region. *)
  Definition file_path (snapshot_padding num_output_files snapshot_num file_index : nat) : list nat * list nat :=
    (snapshot_name snapshot_padding snapshot_num, file_name num_output_files file_index).
  (** [get_output_file], simulation_builder.rs 252-261: relative to the output directory. *)
  Definition log_file (num_ranks rank : nat) : list nat :=
    codes "logs/rank_" ++ padded (number_width num_ranks) rank ++ codes ".log".
End Width.
