(** Vocabulary for C05-C08. *)
From Coq Require Import List Arith QArith ZArith.
Import ListNotations.
From Verif Require Import Timestep_Model.
Local Open Scope nat_scope.

Fixpoint Qsum (l : list Q) : Q :=
  match l with [] => 0%Q | x :: l => (x + Qsum l)%Q end.

(** 2^k and 2^-k as rationals. *)
Definition pow2 (k : nat) : Q := inject_Z (2 ^ Z.of_nat k).

(** Time after [k] runs of a simulation with [n] levels: the first run uses the
    smallest step, every following run doubles the elapsed time until the
    maximum step is reached, then every run adds the maximum step. *)
Definition time_after (max : Q) (n k : nat) : Q :=
  (if k =? 0 then 0
   else if k <=? n then max / pow2 (n - k)
   else max + max * inject_Z (Z.of_nat (k - n)))%Q.

(** Reference semantics of an active list: the items with their levels, and
    whether the list may be iterated. *)
Definition ref_list (T : Type) := (list (T * nat) * bool)%type.

(** Entries with a level of at least [level], with their index. *)
Fixpoint ref_active {T} (rank i level : nat) (l : list (T * nat)) : list ((nat * nat) * T) :=
  match l with
  | [] => []
  | (t, lv) :: l =>
      if level <=? lv then ((rank, i), t) :: ref_active rank (S i) level l
      else ref_active rank (S i) level l
  end.

Fixpoint ref_update {A} (i : nat) (f : A -> A) (l : list A) : list A :=
  match l, i with
  | [], _ => []
  | x :: l, 0 => f x :: l
  | x :: l, S i => x :: ref_update i f l
  end.

Definition ref_step {T} (r : ref_list T) (o : al_op T) : ref_list T :=
  match o with
  | OpSetLevel i l => (ref_update i (fun x => (fst x, l)) (fst r), false)
  | OpSetItem i f => (ref_update i (fun x => (f (fst x), snd x)) (fst r), snd r)
  | OpUpdateBins => (fst r, true)
  end.

