(** Property C40: arranging items around a ring. *)
From Coq Require Import List Arith Lia Permutation.
Import ListNotations.
From Verif Require Import Cyclic_Model Cyclic_Spec Cyclic_Proofs.

(** C40. [periodic_windows_2] gives the pairs of neighbours around the closed ring, and
    nothing if there are fewer than two items. *)
Theorem C40_windows : forall A (d : A) values,
  periodic_windows_2 values d = if length values <? 2 then [] else around values.
Proof. exact @windows_spec. Qed.
Print Assumptions C40_windows.

(** If the relation is symmetric, every item is related to exactly two others and all
    items hang together, [arrange_cyclic_by] does not panic; it gives the pairs of
    neighbours around a ring in which every item occurs exactly once, starting with item
    0, and the items of each pair are related. *)
Theorem C40_ring : forall related n,
  (forall i j, i < n -> j < n -> related i j = related j i) ->
  two_related (fun i j => related i j = true) n ->
  connected (fun i j => related i j = true) n ->
  1 <= n ->
  exists ring, arrange_cyclic_by related n = Some (around (0 :: ring))
    /\ Permutation (0 :: ring) (seq 0 n)
    /\ forall i j, In (i, j) (around (0 :: ring)) -> related i j = true.
Proof. exact arrange_spec. Qed.
Print Assumptions C40_ring.

(** Around a ring, every item is once the first and once the second of a pair. *)
Theorem C40_each_once : forall A (ring : list A),
  map fst (around ring) = ring /\ Permutation (map snd (around ring)) ring.
Proof. exact @around_once. Qed.
Print Assumptions C40_each_once.

(** Fewer than two items: nothing. Two items that are related: both orders. *)
Theorem C40_small : forall related,
  arrange_cyclic_by related 0 = Some [] /\ arrange_cyclic_by related 1 = Some []
  /\ (related 0 1 = true -> related 1 0 = true -> arrange_cyclic_by related 2 = Some (around [0; 1])).
Proof. exact arrange_small. Qed.
Print Assumptions C40_small.

(** Five items around the ring 0 - 3 - 1 - 4 - 2 - 0. *)
Definition ring5 (i j : nat) : bool := (j =? (i + 3) mod 5) || (i =? (j + 3) mod 5).
Example C40_example :
  (forall i j, i < 5 -> j < 5 -> ring5 i j = ring5 j i)
  /\ two_related (fun i j => ring5 i j = true) 5 /\ connected (fun i j => ring5 i j = true) 5
  /\ arrange_cyclic_by ring5 5 = Some [(0, 2); (2, 4); (4, 1); (1, 3); (3, 0)].
Proof.
  split; [intros i j _ _; unfold ring5; apply Bool.orb_comm|]. split; [|split; [|reflexivity]].
  - intros i Hi. exists ((i + 3) mod 5), ((i + 2) mod 5).
    do 5 (destruct i as [|i]; [cbn; repeat split; try lia; do 5 (destruct j as [|j]; [cbn; intuition (try discriminate; lia)|]); lia|]). lia.
  - intros P H0 Hs i Hi.
    assert (H2 : P 2) by (apply (Hs 0 2); auto; lia). assert (H4 : P 4) by (apply (Hs 2 4); auto; lia).
    assert (H1 : P 1) by (apply (Hs 4 1); auto; lia). assert (H3 : P 3) by (apply (Hs 1 3); auto; lia).
    do 5 (destruct i as [|i]; [assumption|]). lia.
Qed.

(** The documented precondition, that every item is related to two others, does not
    suffice: two separate triangles panic, ... *)
Theorem C40_documented_precondition_refuted : exists related n,
  (forall i j, related i j = related j i)
  /\ two_related (fun i j => related i j = true) n
  /\ arrange_cyclic_by related n = None.
Proof.
  exists (fun i j => i / 3 =? j / 3), 6.
  split; [intros i j; apply Nat.eqb_sym|]. split; [|reflexivity].
  intros i Hi. exists (i / 3 * 3 + (i + 1) mod 3), (i / 3 * 3 + (i + 2) mod 3).
  do 6 (destruct i as [|i]; [cbn; repeat split; try lia; do 6 (destruct j as [|j]; [cbn; intuition (try discriminate; lia)|]); lia|]). lia.
Qed.
Print Assumptions C40_documented_precondition_refuted.

(** ... and so does a ring of four with one additional relation, although it can be
    arranged: from 0 the search takes the short cut to 1 and is stuck one later. *)
Definition chord (i j : nat) : bool :=
  match i, j with
  | 0, 2 | 2, 0 | 2, 1 | 1, 2 | 1, 3 | 3, 1 | 3, 0 | 0, 3 => true
  | 0, 1 | 1, 0 => true
  | _, _ => false
  end.
Theorem C40_chord_refuted :
  (forall i j, chord i j = chord j i)
  /\ (forall i, i < 4 -> exists a b, a <> b /\ a <> i /\ b <> i /\ chord i a = true /\ chord i b = true)
  /\ (forall i j, In (i, j) (around [0; 2; 1; 3]) -> chord i j = true)
  /\ arrange_cyclic_by chord 4 = None.
Proof.
  split; [|split; [|split]].
  - intros i j. do 4 (destruct i as [|i]; [do 4 (destruct j as [|j]; [reflexivity|]); reflexivity|]).
    do 4 (destruct j as [|j]; [reflexivity|]). reflexivity.
  - intros i Hi. do 4 (destruct i as [|i]; [try (exists 2, 3; cbn; repeat split; lia); exists 0, 1; cbn; repeat split; lia|]). lia.
  - intros i j H. cbn in H. repeat (destruct H as [H|H]; [injection H as <- <-; reflexivity|]). destruct H.
  - reflexivity.
Qed.
Print Assumptions C40_chord_refuted.
