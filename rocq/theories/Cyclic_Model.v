(** Model of [/repo/src/voronoi/utils.rs]. Items are given by their index; [None] is a
    panic. *)
From Coq Require Import List Arith Bool.
Import ListNotations.

(** ** [periodic_windows_2] *)

(** [PeriodicWindows2::next], utils.rs 11-24: the item and the new cursor. *)
Definition windows_next {A} (values : list A) (d : A) (cursor : nat) : option (A * A) :=
  if length values <? 2 then None
  else if length values <=? cursor then None
  else if cursor =? length values - 1 then Some (nth cursor values d, nth 0 values d)
  else Some (nth cursor values d, nth (cursor + 1) values d).

(** The items that an iteration yields before the first [None]; the cursor grows by one
    with every item. *)
Fixpoint windows_from {A} (fuel : nat) (values : list A) (d : A) (cursor : nat) : list (A * A) :=
  match fuel with
  | 0 => []
  | S fuel' =>
      match windows_next values d cursor with
      | Some p => p :: windows_from fuel' values d (S cursor)
      | None => []
      end
  end.
Definition periodic_windows_2 {A} (values : list A) (d : A) : list (A * A) :=
  windows_from (S (length values)) values d 0.

(** ** [arrange_cyclic_by] *)

Section Cyclic.
  (** [related] on the indices of the items, and the number of items. *)
  Variable related : nat -> nat -> bool.
  Variable n : nat.

  (** [visited], a hash set, and [visiting], 33-38. *)
  Record cyclic : Type := Cyclic { visited : list nat; visiting : nat }.

  Definition is_visited (s : cyclic) (i : nat) : bool := existsb (Nat.eqb i) (visited s).

  Inductive item : Type := End | Panic | Item (i j : nat) (s : cyclic).

  (** [Cyclic::next], 61-86. *)
  Definition cyclic_next (s : cyclic) : item :=
    if (n <? 2) || (n =? length (visited s)) then End
    else if length (visited s) =? n - 1 then
      if related (visiting s) 0
      then Item (visiting s) 0 (Cyclic (visiting s :: visited s) (visiting s))
      else Panic
    else
      match find (fun i => negb (i =? visiting s) && negb (is_visited s i) && related (visiting s) i) (seq 0 n) with
      | Some j => Item (visiting s) j (Cyclic (visiting s :: visited s) j)
      | None => Panic
      end.

  (** The whole iteration; [None] if it panics. *)
  Fixpoint cyclic_from (fuel : nat) (s : cyclic) : option (list (nat * nat)) :=
    match fuel with
    | 0 => Some []
    | S fuel' =>
        match cyclic_next s with
        | End => Some []
        | Panic => None
        | Item i j s' => option_map (cons (i, j)) (cyclic_from fuel' s')
        end
    end.
  Definition arrange_cyclic_by : option (list (nat * nat)) := cyclic_from (S n) (Cyclic [] 0).
End Cyclic.
