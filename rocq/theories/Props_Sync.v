(** C94. Mirrors of entities on other ranks ([sync_communicator.rs], [identified.rs]). *)
From Coq Require Import List Arith NArith Lia Permutation.
From Verif Require Import DataByRank_Model Sync_Spec Sync_Model Sync_Proofs.
Import ListNotations.

(** After every run in which no rank has panicked, each rank has exactly one entity for every entity of another rank that
    was sent to it before the last round, with the data sent last. [order_sync] and [order_keys] are the orders in which
    hash maps are iterated, [alloc] returns entities that are not in use. *)
Theorem C94_mirrors : forall (T : Type) n (order_sync : list (entity * T) -> _) order_keys (alloc : list (entity * T) -> entity),
  (forall l, Permutation (order_sync l) l) -> (forall l, Permutation (order_keys l) l) -> (forall w, ~ In (alloc w) (map fst w)) ->
  forall ops s y,
  Forall (fun o => match o with Send x z e _ => x < n /\ z < n /\ x <> z /\ (index e < 2 ^ 32)%N | Round => True end) ops ->
  run n order_sync order_keys alloc ops = Some s -> y < n ->
  exists mirror, exact_mirrors n (fun x e d => told ops x y e d) mirror (live s y).
Proof. intros T n os ok al H1 H2 H3 ops s y. exact (run_mirrors n os ok al H1 H2 H3 ops s y). Qed.
Print Assumptions C94_mirrors.

(** A rank panics exactly if something is sent after a round. *)
Theorem C94_panics : forall (T : Type) n (order_sync : list (entity * T) -> _) order_keys (alloc : list (entity * T) -> entity),
  (forall l, Permutation (order_sync l) l) -> (forall l, Permutation (order_keys l) l) -> (forall w, ~ In (alloc w) (map fst w)) ->
  forall ops,
  Forall (fun o => match o with Send x z e _ => x < n /\ z < n /\ x <> z /\ (index e < 2 ^ 32)%N | Round => True end) ops ->
  (run n order_sync order_keys alloc ops <> None <-> sends_first ops).
Proof. intros T n os ok al H1 H2 H3 ops. exact (run_goes_on n os ok al H1 H2 H3 ops). Qed.
Print Assumptions C94_panics.

(** What was received from one rank, for any mirrors that exist already: the mentioned ones stay the same entities, the
    others are deleted, and new entities are created for what was not known. *)
Theorem C94_one_rank : forall (T : Type) order_keys (alloc : list (entity * T) -> entity),
  (forall l, Permutation (order_keys l) l) -> (forall w, ~ In (alloc w) (map fst w)) ->
  forall data w known, NoDup (map fst data) -> NoDup (map fst w) -> NoDup (map fst known) ->
  (forall e, In e (map snd known) -> In e (map fst w)) -> (forall k k' e, In (k, e) known -> In (k', e) known -> k = k') ->
  exists new known' upds del, receive_rank order_keys alloc data w known = Some (w ++ new, known', upds, del)
    /\ NoDup (map fst (w ++ new)) /\ NoDup (map fst known')
    /\ (forall k, In k (map fst known') <-> In k (map fst data))
    /\ (forall k e, In (k, e) known -> In k (map fst data) -> In (k, e) known')
    /\ (forall k e, In (k, e) known' -> In (k, e) known \/ ~ In k (map fst known) /\ exists d, In (k, d) data /\ In (e, d) new)
    /\ (forall e, In e (map fst new) -> In e (map snd known'))
    /\ (forall e d, In (e, d) upds <-> exists k, In (k, d) data /\ In (k, e) known)
    /\ (forall e, In e del <-> exists k, In (k, e) known /\ ~ In k (map fst data)).
Proof.
  intros T ok al H1 H2 data w known A B C D E. destruct (receive_rank_ok ok al H1 H2 data w known A B C D E) as (new & k' & u & d & R & N & Q & _).
  exists new, k', u, d. split; [exact R|]. split; [exact N|exact Q].
Qed.
Print Assumptions C94_one_rank.

(** The key that is sent determines the entity, its generation included. *)
Theorem C94_keys : forall e, (index e < 2 ^ 32)%N -> from_bits (to_bits e) = e.
Proof. exact from_to_bits. Qed.
Print Assumptions C94_keys.

(** Three ranks; an entity is sent twice, the generations of two entities differ. *)
Example C94_example :
  Forall (fun o => match o with Send x z e _ => x < 3 /\ z < 3 /\ x <> z /\ (index e < 2 ^ 32)%N | Round => True end) (some_sends ++ [Round])
  /\ option_map (fun s => (live s 0, live s 1, live s 2)) (run 3 (fun l => l) (fun l => l) next_entity (some_sends ++ [Round]))
     = Some ([(E 0 1, 14)], [(E 0 1, 11); (E 0 2, 13); (E 0 3, 12)], [])
  /\ option_map (fun s => (live s 0, live s 1, live s 2)) (run 3 (fun l => l) (fun l => l) next_entity (some_sends ++ [Round; Round]))
     = Some ([], [], []).
Proof.
  split; [|split].
  - unfold some_sends. cbn [app]. repeat constructor; cbn; try lia; discriminate.
  - vm_compute. reflexivity.
  - vm_compute. reflexivity.
Qed.
(** The hypotheses of [C94_one_rank] with an entity that is kept, one that is deleted and one that is new. *)
Example C94_one_rank_example :
  receive_rank (fun l => l) next_entity [(3%N, 30); (5%N, 50)] [(E 0 1, 10); (E 0 2, 20)] [(3, E 0 1); (4, E 0 2)]%N
  = Some ([(E 0 1, 10); (E 0 2, 20); (E 0 3, 50)], [(3, E 0 1); (5, E 0 3)]%N, [(E 0 1, 30)], [E 0 2]).
Proof. reflexivity. Qed.

(** The communicator cannot be used for a second round: [drain_all] leaves no place for any rank, and the next
    [send_sync] panics. *)
Theorem C94_second_send_refuted : exists ops x y e d, let all := ops ++ [Round; Send x y e d] in
  Forall (fun o => match o with Send x z e _ => x < 2 /\ z < 2 /\ x <> z /\ (index e < 2 ^ 32)%N | Round => True end) all
  /\ run 2 (fun l => l) (fun l => l) next_entity (ops ++ [Round]) <> None /\ run 2 (fun l => l) (fun l => l) next_entity all = None.
Proof.
  exists [Send 0 1 (E 0 7) 10], 0, 1, (E 0 7), 11. cbn zeta. split; [|split].
  - cbn [app]. repeat constructor; cbn; try lia; discriminate.
  - intro H. apply (f_equal (option_map (fun _ => tt))) in H. vm_compute in H. discriminate.
  - vm_compute. reflexivity.
Qed.
Print Assumptions C94_second_send_refuted.
