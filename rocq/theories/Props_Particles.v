(** Property C19: the exchange of particles. *)
From Coq Require Import List Arith Lia Permutation.
Import ListNotations.
From Verif Require Import DataByRank_Model Exchange_Model Exchange_Spec Exchange_Proofs
  ParticleExchange_Model ParticleExchange_Proofs.

(** C19. For every population of particles (a list of entities with [m]
    components per rank), every choice of target ranks and every order of the
    component types, the exchange succeeds; the multiset of particles, each with
    all its components, is unchanged; every particle is on the rank chosen for
    it; entities are distinct; particles that need not move keep their entity. *)
Theorem C19_particles_conserved :
  forall (V : Type) n m (owner : comps V -> nat) types next (ps : list (list (nat * list V))),
  length ps = n ->
  (forall w, In w ps -> NoDup (map fst w)) ->
  (forall x w e c, nth_error ps x = Some w -> In (e, c) w ->
     length c = m /\ owner (map Some c) < n /\ e < next x) ->
  (forall t, In t types <-> t < m) ->
  exists qs,
    exchange_particles n m owner types next (map embed ps) = Some (map embed qs)
    /\ length qs = n
    /\ Permutation (map snd (concat ps)) (map snd (concat qs))
    /\ forall x w, nth_error qs x = Some w ->
         NoDup (map fst w)
         /\ (forall e c, In (e, c) w -> owner (map Some c) = x)
         /\ (forall w0 e c, nth_error ps x = Some w0 -> In (e, c) w0 ->
               owner (map Some c) = x -> In (e, c) w).
Proof. exact @particles_conserved. Qed.
Print Assumptions C19_particles_conserved.

(** All data passed to the exchange protocol names exactly the other ranks, which
    is what C20 requires, also for termination without buffering. *)
Theorem C19_data_fits_protocol :
  forall (V : Type) n (owner : comps V -> nat) x t (w : list (nat * list V)),
  x < n -> NoDup (map fst w) ->
  (forall e c, In (e, c) w -> owner (map Some c) < n /\ t < length c) ->
  exists out counts buffers,
    set_outgoing n owner x (embed w) = Some out
    /\ num_data n x out = Some counts
    /\ names_others n x counts /\ names_all_others n x counts
    /\ fill_buffers n x t (embed w) out = Some buffers
    /\ names_others n x buffers /\ names_all_others n x buffers.
Proof. exact @exchanged_data_complete. Qed.
Print Assumptions C19_data_fits_protocol.

(** Three ranks, particles with two components; the first one modulo 3 is the
    target rank. Rank 2 has no particle at first. *)
Definition ex_owner (c : comps nat) : nat :=
  match c with Some v :: _ => Nat.modulo v 3 | _ => 0 end.
Definition ex_ps : list (list (nat * list nat)) :=
  [[(0, [3; 100]); (1, [4; 101]); (2, [5; 102]); (3, [5; 103])]; [(0, [8; 104]); (7, [10; 105])]; []].
Example C19_example :
  exchange_particles 3 2 ex_owner [1; 0] (fun _ => 10) (map embed ex_ps)
  = Some (map embed [[(0, [3; 100])]; [(7, [10; 105]); (10, [4; 101])];
                     [(10, [5; 102]); (11, [5; 103]); (12, [8; 104])]]).
Proof. vm_compute. reflexivity. Qed.
Example C19_hypotheses_example :
  length ex_ps = 3
  /\ (forall w, In w ex_ps -> NoDup (map fst w))
  /\ (forall x w e c, nth_error ex_ps x = Some w -> In (e, c) w ->
        length c = 2 /\ ex_owner (map Some c) < 3 /\ e < 10)
  /\ (forall t, In t [1; 0] <-> t < 2).
Proof.
  split; [reflexivity|]. split; [|split].
  - intros w [<-|[<-|[<-|[]]]]; cbn; repeat constructor; cbn; intuition discriminate.
  - intros x w e c Hw Hin.
    destruct x as [|[|[|x]]]; cbn in Hw; try (destruct x; discriminate);
      injection Hw as <-; cbn in Hin;
      repeat (destruct Hin as [E|Hin]; [injection E as <- <-; cbn; repeat split; lia|]);
      destruct Hin.
  - intro t. cbn. lia.
Qed.
(** A particle whose target rank does not exist makes the exchange panic. *)
Example C19_unknown_rank_panics :
  exchange_particles 2 1 (fun _ => 2) [0] (fun _ => 10) (map embed [[(0, [3])]; []]) = None.
Proof. vm_compute. reflexivity. Qed.
