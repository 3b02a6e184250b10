(** Model of the per-rank container, [/repo/src/communication/data_by_rank.rs].
    A rank ([i32] in the code) is a [nat]: negative ranks do not occur. A panic
    is [None]. *)
From Coq Require Import List Arith.
Import ListNotations.

Section DataByRank.
Context {A : Type}.

(** [struct DataByRank<T>(Vec<Option<T>>)], data_by_rank.rs 9. *)
Definition dbr : Type := list (option A).

(** [empty] and [default], data_by_rank.rs 11-15, 36-38. *)
Definition dempty : dbr := [].

(** Writing to a slot of a vector: [v[r] = x]; [None] when out of range. *)
Fixpoint set_slot (v : dbr) (r : nat) (x : option A) : option dbr :=
  match v, r with
  | [], _ => None
  | _ :: v', 0 => Some (x :: v')
  | y :: v', S r' =>
      match set_slot v' r' x with Some w => Some (y :: w) | None => None end
  end.

(** [get], data_by_rank.rs 113-115: the outer [None] is the index panic. *)
Definition dget (v : dbr) (r : nat) : option (option A) := nth_error v r.

(** [Index], data_by_rank.rs 98-104: [get] followed by [unwrap]. *)
Definition dindex (v : dbr) (r : nat) : option A :=
  match dget v r with Some (Some x) => Some x | _ => None end.

(** Changing a present value in place through [get_mut]/[IndexMut],
    data_by_rank.rs 106-110, 117-119: panics when the rank is not present. *)
Definition dmodify (v : dbr) (r : nat) (f : A -> A) : option dbr :=
  match dindex v r with Some x => set_slot v r (Some (f x)) | None => None end.

(** [remove], data_by_rank.rs 121-123: [Option::take] on the slot. *)
Definition dremove (v : dbr) (r : nat) : option (option A * dbr) :=
  match dget v r with
  | Some x => match set_slot v r None with Some w => Some (x, w) | None => None end
  | None => None
  end.

(** [extend], data_by_rank.rs 133-137. *)
Definition dextend (v : dbr) (num : nat) : dbr := v ++ repeat None num.

(** [insert], data_by_rank.rs 125-131. *)
Definition dinsert (v : dbr) (r : nat) (x : A) : option dbr :=
  let v' := if length v <=? r then dextend v (r - length v + 1) else v in
  set_slot v' r (Some x).

(** [.enumerate().filter_map(..)] from position [i]. *)
Fixpoint enum_some (i : nat) (v : dbr) : list (nat * A) :=
  match v with
  | [] => []
  | Some x :: v' => (i, x) :: enum_some (S i) v'
  | None :: v' => enum_some (S i) v'
  end.

(** [iter]/[iter_mut], data_by_rank.rs 139-151. *)
Definition diter (v : dbr) : list (nat * A) := enum_some 0 v.

(** [drain_all], data_by_rank.rs 77-82: [Vec::drain(..)] leaves an empty vector. *)
Definition ddrain (v : dbr) : list (nat * A) * dbr := (enum_some 0 v, []).

(** [IntoIter::next], data_by_rank.rs 175-188; the [while] loop is given fuel.
    Outer [None] is a panic, inner [None] the end of the iteration. *)
Fixpoint dnext (fuel : nat) (v : dbr) (cursor : nat)
  : option (option (nat * A) * dbr * nat) :=
  if cursor <? length v then
    match fuel with
    | 0 => None
    | S fuel' =>
        match dremove v cursor with
        | None => None
        | Some (item, v') =>
            match item with
            | Some x => Some (Some (cursor, x), v', cursor + 1)
            | None => dnext fuel' v' (cursor + 1)
            end
        end
    end
  else Some (None, v, cursor).

(** Consuming the whole iterator, data_by_rank.rs 154-162 and [for .. in]. *)
Fixpoint dcollect (fuel : nat) (v : dbr) (cursor : nat) : option (list (nat * A)) :=
  match dnext (length v) v cursor with
  | None => None
  | Some (None, _, _) => Some []
  | Some (Some item, v', c') =>
      match fuel with
      | 0 => None
      | S fuel' =>
          match dcollect fuel' v' c' with
          | Some l => Some (item :: l)
          | None => None
          end
      end
  end.

Definition dinto_iter (v : dbr) : option (list (nat * A)) := dcollect (length v) v 0.

(** [from_iter], data_by_rank.rs 190-198. *)
Fixpoint dinsert_all (v : dbr) (l : list (nat * A)) : option dbr :=
  match l with
  | [] => Some v
  | (r, x) :: l' =>
      match dinsert v r x with Some w => dinsert_all w l' | None => None end
  end.

Definition dfrom_iter (l : list (nat * A)) : option dbr := dinsert_all dempty l.

(** [from_closure_size_and_rank], data_by_rank.rs 51-62 (also
    [from_communicator], [from_size_and_rank] 69-75 and
    [same_for_other_ranks_in_communicator] 86-91); [this_rank = None] stands for
    the rank -1 of [same_for_all_ranks_in_communicator] 93-95. *)
Definition dfrom_closure (x : A) (size : nat) (this_rank : option nat) : dbr :=
  map (fun r => match this_rank with
                | Some t => if r =? t then None else Some x
                | None => Some x
                end) (seq 0 size).

End DataByRank.

Arguments dbr A : clear implicits.

(** [size], data_by_rank.rs 41-48. *)
Definition dsize {B} (v : dbr (list B)) : nat :=
  list_sum (map (fun o => match o with Some l => length l | None => 0 end) v).
