(** Specification of a map from ranks, independent of the vector model: a map is
    a function from ranks; only a bound on the ranks that were ever addressed is
    remembered, because reading beyond it panics. *)
From Coq Require Import List Arith Sorted.
Import ListNotations.

Section MapSpec.
Context {A : Type}.

Definition rmap : Type := nat -> option A.

(** What a client can do with the container. *)
Inductive op :=
| OpInsert (r : nat) (x : A)
| OpGet (r : nat)
| OpIndex (r : nat)
| OpModify (r : nat) (f : A -> A)
| OpRemove (r : nat)
| OpIter
| OpDrain
| OpCollect (l : list (nat * A))
| OpIntoIter.

(** What it sees. *)
Inductive obs :=
| Done
| Value (o : option A)
| Items (l : list (nat * A))
| Panic.

(** [l] lists the map: each present rank once, in increasing order. *)
Definition lists (m : rmap) (l : list (nat * A)) : Prop :=
  (forall r x, In (r, x) l <-> m r = Some x)
  /\ StronglySorted lt (map fst l).

(** The last value given to [r] by a sequence of assignments. *)
Definition last_assigned (l : list (nat * A)) (r : nat) : option A :=
  fold_left (fun acc e => if fst e =? r then Some (snd e) else acc) l None.

(** [spec_step m b o w m' b']: with contents [m] and bound [b] operation [o] may
    answer [w] and leave contents [m'] and bound [b']. *)
Inductive spec_step (m : rmap) (b : nat) : op -> obs -> rmap -> nat -> Prop :=
| spec_insert r x m' :
    (forall q, m' q = if q =? r then Some x else m q) ->
    spec_step m b (OpInsert r x) Done m' (Nat.max b (S r))
| spec_get r : r < b -> spec_step m b (OpGet r) (Value (m r)) m b
| spec_get_panic r : b <= r -> spec_step m b (OpGet r) Panic m b
| spec_index r x : m r = Some x -> spec_step m b (OpIndex r) (Value (Some x)) m b
| spec_index_panic r : m r = None -> spec_step m b (OpIndex r) Panic m b
| spec_modify r f x m' :
    m r = Some x -> (forall q, m' q = if q =? r then Some (f x) else m q) ->
    spec_step m b (OpModify r f) Done m' b
| spec_modify_panic r f : m r = None -> spec_step m b (OpModify r f) Panic m b
| spec_remove r m' :
    r < b -> (forall q, m' q = if q =? r then None else m q) ->
    spec_step m b (OpRemove r) (Value (m r)) m' b
| spec_remove_panic r : b <= r -> spec_step m b (OpRemove r) Panic m b
| spec_iter l : lists m l -> spec_step m b OpIter (Items l) m b
| spec_drain l m' :
    lists m l -> (forall q, m' q = None) -> spec_step m b OpDrain (Items l) m' 0
| spec_into_iter l m' :
    lists m l -> (forall q, m' q = None) -> spec_step m b OpIntoIter (Items l) m' 0
| spec_collect l m' b' :
    (forall q, m' q = last_assigned l q) ->
    (forall q, q < b' <-> exists r x, In (r, x) l /\ q <= r) ->
    spec_step m b (OpCollect l) Done m' b'.

(** A run answers the operations one by one and stops at a panic. *)
Inductive accepted : rmap -> nat -> list op -> list obs -> Prop :=
| accepted_nil m b : accepted m b [] []
| accepted_panic m b o ops m' b' :
    spec_step m b o Panic m' b' -> accepted m b (o :: ops) [Panic]
| accepted_cons m b o ops w ws m' b' :
    w <> Panic -> spec_step m b o w m' b' -> accepted m' b' ops ws ->
    accepted m b (o :: ops) (w :: ws).

End MapSpec.
Arguments rmap A : clear implicits.
Arguments op A : clear implicits.
Arguments obs A : clear implicits.
