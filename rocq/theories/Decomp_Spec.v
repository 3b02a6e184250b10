(** What a decomposition and a cut are meant to satisfy. *)
From Coq Require Import List NArith Sorted.
Import ListNotations.
Local Open Scope N_scope.

(** Ranks own contiguous intervals in increasing order: the owner is a monotone
    function of the key with values below the number of ranks. *)
Definition interval_ownership (owner : N -> nat) (n_ranks : nat) (maxkey : N) : Prop :=
  (forall k, k <= maxkey -> (owner k < n_ranks)%nat)
  /\ (forall a b, a <= b -> (owner a <= owner b)%nat)
  /\ (forall a b c, a <= b -> b <= c -> owner a = owner c -> owner b = owner a).

(** Number of list elements that are at most [k]. *)
Definition count_le (l : list N) (k : N) : nat := length (filter (fun c => c <=? k) l).

(** A cut is good when the load up to it is the target, or the load passes the
    target right at it (allowing one key on either side). *)
Definition hits_or_jumps (load : N -> N) (target c : N) : Prop :=
  load c = target \/ (load (c - 1) <= target /\ target <= load (c + 1)).

Definition monotone (load : N -> N) : Prop := forall a b, a <= b -> load a <= load b.

(** [j] is the first key at which the load reaches the target. *)
Definition first_reaching (load : N -> N) (target j : N) : Prop :=
  target <= load j /\ forall k, k < j -> load k < target.
