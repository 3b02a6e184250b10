(** Pieces that the collective look-ups have in common: hash maps, the list of the other
    ranks, and what the ranks pass in each round of a chunked exchange. *)
From Coq Require Import List Arith.
From Verif Require Import Decomp_Model FileDist_Model.
Import ListNotations.

(** [HashMap::get] and [HashMap::insert] of the standard library; hash maps are
    association lists. *)
Fixpoint hget {A} (e : nat) (m : list (nat * A)) : option A :=
  match m with
  | [] => None
  | (e', a) :: m' => if (e' =? e)%nat then Some a else hget e m'
  end.
Fixpoint hput {A} (e : nat) (a : A) (m : list (nat * A)) : list (nat * A) :=
  match m with
  | [] => [(e, a)]
  | (e', a') :: m' => if (e' =? e)%nat then (e, a) :: m' else (e', a') :: hput e a m'
  end.
(** [collect] into a [HashMap]. *)
Definition hcollect {A} (l : list (nat * A)) : list (nat * A) :=
  fold_left (fun m p => hput (fst p) (snd p) m) l [].

(** [comm.other_ranks()], sized_communicator.rs 7-11. *)
Definition other_ranks (n x : nat) : list nat :=
  filter (fun y => negb (y =? x)%nat) (seq 0 n).

(** The same computation on all [n] ranks. *)
Definition for_all_ranks {A} (n : nat) (f : nat -> option A) : option (list A) := opt_all f (seq 0 n).

(** [divide_into_chunks_with_same_num_globally], communication/exchange_communicator.rs
    108-121, on all ranks: element [i] holds the chunks that the ranks use in round [i]. *)
Definition rounds_of {A} (chunk_size : nat) (items : list (list A)) : list (list (list A)) :=
  let k := global_num_chunks (map (@length A) items) chunk_size in
  map (fun i => map (fun l => nth i l []) (map (divide_into_chunks k chunk_size) items)) (seq 0 k).
