(** Properties C34 and C35: lookup of ids and cells read from a file. *)
From Coq Require Import List Arith ZArith QArith Permutation.
Import ListNotations.
From Verif Require Import Collective_Model ReadGrid_Model ReadGrid_Spec ReadGrid_Proofs.
Local Open Scope nat_scope.

(** C34. Let every rank know its own ids and nothing that is not stored somewhere (this
    holds at the start and again after every lookup). After the lookup a rank knows
    exactly what it knew before and those of the requested ids that some rank stores,
    with the stored value. The size of the chunks does not occur in the result. *)
Theorem C34_lookup : forall n tables, length tables = n -> NoDup (map fst (concat tables)) ->
  forall chunk_size requests maps, 1 <= chunk_size -> length requests = n -> length maps = n ->
  (forall x id p, In (id, p) (nth x tables []) -> hget id (nth x maps []) = Some p) ->
  (forall x id p, hget id (nth x maps []) = Some p -> stored tables id p) ->
  length (perform_lookup n chunk_size requests maps) = n
  /\ forall x, x < n -> forall id p, hget id (nth x (perform_lookup n chunk_size requests maps) []) = Some p
       <-> hget id (nth x maps []) = Some p \/ In id (nth x requests []) /\ stored tables id p.
Proof. exact lookup_spec. Qed.
Print Assumptions C34_lookup.

Definition ex_tables : list (list (nat * pid)) := [[(10, (0, 0)); (11, (0, 1))]; [(20, (1, 0))]; [(30, (2, 0))]].
Example C34_example :
  NoDup (map fst (concat ex_tables))
  /\ perform_lookup 3 1 [[20; 30; 99]; []; [11]] ex_tables
     = [[(10, (0, 0)); (11, (0, 1)); (20, (1, 0)); (30, (2, 0))]; [(20, (1, 0))]; [(30, (2, 0)); (11, (0, 1))]].
Proof.
  split; [|vm_compute; reflexivity].
  cbn. repeat (constructor; [intro H; repeat (destruct H as [H|H]; [discriminate H|]); exact H|]). constructor.
Qed.

(** Without unique ids the answer depends on the order of the ranks: an id that two
    ranks store is resolved to the later one, while the other rank keeps its own. *)
Theorem C34_duplicate_id_refuted : exists tables p q, p <> q
  /\ stored tables 5 p /\ stored tables 5 q
  /\ hget 5 (nth 0 (perform_lookup 3 1 [[5]; []; []] tables) []) = Some q
  /\ hget 5 (nth 1 (perform_lookup 3 1 [[5]; []; []] tables) []) = Some p.
Proof.
  exists [[]; [(5, (1, 0))]; [(5, (2, 0))]], (1, 0), (2, 0). split; [discriminate|].
  split; [exists 1; left; reflexivity|]. split; [exists 2; left; reflexivity|].
  split; vm_compute; reflexivity.
Qed.
Print Assumptions C34_duplicate_id_refuted.

(** C35. The types of connections that are used: bits 1 and 3 mark a boundary, bits 0 and
    2 a periodic image. *)
Theorem C35_types : forall z, connection_type z = if accepted z then Some (bit z 0, bit z 2) else None.
Proof. exact connection_type_spec. Qed.
Print Assumptions C35_types.

(** All ranks finish. Each direct connection between two cells appears once in either
    cell, with the same area and opposite normals, whichever ranks they live on; a
    connection with a periodic image appears as boundary face of the cell at its other
    end; neighbours on the same rank are local and all others remote; and every rank
    gets one halo for every particle of another rank that is connected to one of its
    own. This holds for every order of the requests and every size of the chunks. *)
Theorem C35_cells : forall drain, (forall l, Permutation (drain l) l) ->
  forall n chunk_size allow_periodic particles file, 1 <= chunk_size ->
  input_ok n allow_periodic particles file ->
  exists r, read_grid drain n chunk_size allow_periodic particles file = Some r
    /\ length r = n
    /\ (forall x, x < n -> length (fst (nth x r ([], []))) = length (nth x particles []))
    /\ (forall x i pu u y j pv v,
         nth_error (nth x particles []) i = Some (pu, u) -> nth_error (nth y particles []) j = Some (pv, v) -> u <> v ->
         towards pv (cell_of r x i) = joining (read_connections file) u v
         /\ towards pv (cell_of r x i) = map flip (towards pu (cell_of r y j)))
    /\ (forall x i pu u, nth_error (nth x particles []) i = Some (pu, u) ->
         boundary_faces (cell_of r x i) = ending (read_connections file) u
         /\ forall nb, In nb (cell_of r x i) ->
              match snd nb with
              | Local p => fst p = x /\ In p (map fst (concat particles))
              | Remote p => fst p <> x /\ In p (map fst (concat particles))
              | Boundary => True
              end)
    /\ (forall x, x < n -> NoDup (haloes_of r x)
         /\ forall p, In p (haloes_of r x) <-> fst p <> x
              /\ exists u v q c, In (p, u) (concat particles) /\ In (q, v) (nth x particles []) /\ In c (read_connections file)
                   /\ ((id1 c = u /\ id2 c = v) \/ (id1 c = v /\ id2 c = u))).
Proof. exact read_grid_cells. Qed.
Print Assumptions C35_cells.

Definition ex_particles : list (list (pid * nat)) := [[((0, 0), 10); ((0, 1), 11)]; [((1, 0), 20)]].
Definition ex_file : list entry :=
  [Entry 10 20 0 (1 # 2) (1, 0, 0)%Q; Entry 11 10 0 (1 # 3) (0, 1, 0)%Q; Entry 10 11 2 1 (0, 0, 1)%Q;
   Entry 20 11 1 (1 # 4) (0, 0, 1)%Q; Entry 10 11 (-1) 1 (0, 0, 1)%Q].
Example C35_example :
  input_ok 2 false ex_particles ex_file
  /\ read_grid (@rev nat) 2 1 false ex_particles ex_file
     = Some [([[((1 # 2, (- (1), - 0, - 0)), Remote (1, 0)%nat); ((1 # 3, (0, 1, 0)), Local (0, 1)%nat)];
               [((1 # 3, (- 0, - (1), - 0)), Local (0, 0)%nat); ((1 # 4, (0, 0, 1)), Boundary)]], [(1, 0)%nat]);
             ([[((1 # 2, (1, 0, 0)), Remote (0, 0)%nat)]], [(0, 1)%nat; (0, 0)%nat])]%Q.
Proof.
  split; [|vm_compute; reflexivity].
  constructor.
  - reflexivity.
  - intros [|[|x]] p u; cbn.
    + intros [E|[E|[]]]; injection E as <- <-; reflexivity.
    + intros [E|[]]; injection E as <- <-; reflexivity.
    + destruct x; intros [].
  - cbn. repeat (constructor; [intro H; repeat (destruct H as [H|H]; [discriminate H|]); exact H|]). constructor.
  - cbn. repeat (constructor; [intro H; repeat (destruct H as [H|H]; [discriminate H|]); exact H|]). constructor.
  - intros c H. vm_compute in H. repeat (destruct H as [<-|H]; [cbn; auto|]). destruct H.
  - discriminate.
Qed.

(** An accepted connection with one periodic end appears in only one of its cells. *)
Theorem C35_periodic_end_refuted : exists file particles r,
  input_ok 1 false particles file
  /\ (exists e, file = [e] /\ accepted (e_type e) = true /\ e_id1 e = 0 /\ e_id2 e = 1)
  /\ (forall drain, (forall l, Permutation (drain l) l) -> read_grid drain 1 1 false particles file = Some r)
  /\ cell_of r 0 0 = [] /\ length (cell_of r 0 1) = 1.
Proof.
  exists [Entry 0 1 1 1 (1, 0, 0)%Q], [[((0, 0), 0); ((0, 1), 1)]], [([[]; [((1, (1, 0, 0))%Q, Boundary)]], [])].
  split; [|split; [|split]].
  - constructor.
    + reflexivity.
    + intros [|[|x]] p u; cbn; intros [E|[E|[]]] || intros []; injection E as <- <-; reflexivity.
    + cbn. repeat (constructor; [intro H; repeat (destruct H as [H|H]; [discriminate H|]); exact H|]). constructor.
    + cbn. repeat (constructor; [intro H; repeat (destruct H as [H|H]; [discriminate H|]); exact H|]). constructor.
    + intros c H. vm_compute in H. repeat (destruct H as [<-|H]; [cbn; auto|]). destruct H.
    + discriminate.
  - eexists. split; [reflexivity|]. repeat split.
  - intros drain Hd. assert (E : drain [] = []) by (apply Permutation_nil; symmetry; apply Hd).
    unfold read_grid. cbn -[perform_lookup]. rewrite E. vm_compute. reflexivity.
  - split; reflexivity.
Qed.
Print Assumptions C35_periodic_end_refuted.

(** With periodic boundaries allowed, a single periodic connection of a local cell makes
    the program panic. *)
Theorem C35_allow_periodic_refuted : exists file particles,
  input_ok 1 false particles file
  /\ forall drain, (forall l, Permutation (drain l) l) -> read_grid drain 1 1 true particles file = None.
Proof.
  exists [Entry 0 1 1 1 (1, 0, 0)%Q], [[((0, 0), 0); ((0, 1), 1)]].
  split.
  - constructor.
    + reflexivity.
    + intros [|[|x]] p u; cbn; intros [E|[E|[]]] || intros []; injection E as <- <-; reflexivity.
    + cbn. repeat (constructor; [intro H; repeat (destruct H as [H|H]; [discriminate H|]); exact H|]). constructor.
    + cbn. repeat (constructor; [intro H; repeat (destruct H as [H|H]; [discriminate H|]); exact H|]). constructor.
    + intros c H. vm_compute in H. repeat (destruct H as [<-|H]; [cbn; auto|]). destruct H.
    + discriminate.
  - intros drain Hd. assert (E : drain [] = []) by (apply Permutation_nil; symmetry; apply Hd).
    unfold read_grid. cbn -[perform_lookup]. rewrite E. vm_compute. reflexivity.
Qed.
Print Assumptions C35_allow_periodic_refuted.
