(** Specification vocabulary for C01-C03, independent of the model's functions:
    a snapshot is the list of its slots (file, offset) in order. *)
From Coq Require Import List Arith.
Import ListNotations.
From Verif Require Import FileDist_Model.

(** All slots of files of the given sizes, starting at file number [i]. *)
Fixpoint slots_from (i : nat) (files : list nat) : list (nat * nat) :=
  match files with
  | [] => []
  | n :: fs => map (fun k => (i, k)) (seq 0 n) ++ slots_from (S i) fs
  end.
Definition all_slots (files : list nat) : list (nat * nat) := slots_from 0 files.

(** The slots a region stands for. *)
Definition region_slots (r : region) : list (nat * nat) :=
  map (fun k => (r_file r, k)) (seq (r_start r) (r_end r - r_start r)).
Definition rank_slots (rs : list region) : list (nat * nat) := flat_map region_slots rs.

(** A region is proper for the given files: non-empty and inside its file. *)
Definition region_ok (files : list nat) (r : region) : Prop :=
  r_start r < r_end r /\ exists n, nth_error files (r_file r) = Some n /\ r_end r <= n.

(** Slots and slot values of a list of files given as (index, slots). *)
Definition addrs {A} (ds : list (nat * list (option A))) : list (nat * nat) :=
  flat_map (fun d => map (fun k => (fst d, k)) (seq 0 (length (snd d)))) ds.
Definition vals {A} (ds : list (nat * list (option A))) : list (option A) := flat_map snd ds.
