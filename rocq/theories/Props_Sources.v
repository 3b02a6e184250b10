(** Property C33: deposition of sources. *)
From Coq Require Import List Arith NArith QArith Permutation.
Import ListNotations.
From Verif Require Import Decomp_Model Decomp_Spec Hilbert_Model Ownership_Proofs.
From Verif Require Import Sources_Model Sources_Spec Sources_Proofs.

(** C33. Every particle gets exactly the rates of the sources which are owned by its
    rank and for which it was found as the nearest particle of this rank; the total over
    all ranks grows by the rates of all sources owned by an existing rank. Each source
    has one owner, so it is counted once. The condition says that a rank which owns a
    source has a particle. *)
Theorem C33_deposited_once : forall nearest, finds nearest -> forall mn mx cuts sources particles,
  (forall s, In s (concat sources) -> nth (owner_of mn mx cuts (s_pos s)) particles [] = [] ->
     (length particles <= owner_of mn mx cuts (s_pos s))%nat) ->
  exists r, set_source_terms nearest mn mx cuts sources particles = Some r /\ length r = length particles
    /\ (forall rank j, (rank < length particles)%nat ->
         length (nth rank r []) = length (nth rank particles [])
         /\ (nth j (nth rank r []) 0 == nth j (map snd (nth rank particles [])) 0
           + rate_where (fun s => (owner_of mn mx cuts (s_pos s) =? rank)
                && (nearest (map fst (nth rank particles [])) (s_pos s) =? j))%nat (concat sources))%Q)
    /\ (qsum (map qsum r) == qsum (map (fun ps => qsum (map snd ps)) particles)
         + rate_where (fun s => owner_of mn mx cuts (s_pos s) <? length particles)%nat (concat sources))%Q.
Proof. exact set_terms_ok. Qed.
Print Assumptions C33_deposited_once.

(** With the cuts of a decomposition, all sources whose key is not larger than the
    largest key of a particle are deposited, provided that every rank has a particle. *)
Theorem C33_total : forall nearest, finds nearest ->
  forall mn mx (points : list (list pos)) maxd n cuts loads keys sources particles,
  (forall p, In p (concat points) -> inside_3d mn mx p) ->
  Forall2 (fun ks ps => Permutation ks (map (point_key_3d bits_3d mn mx) ps)) keys points ->
  decompose kmax_3d maxd keys n = Some (cuts, loads) ->
  length particles = n -> Forall (fun ps => ps <> []) particles ->
  (forall s, In s (concat sources) -> exists p, In p (concat points)
     /\ (point_key_3d bits_3d mn mx (s_pos s) <= point_key_3d bits_3d mn mx p)%N) ->
  exists r, set_source_terms nearest mn mx cuts sources particles = Some r
    /\ (qsum (map qsum r) == qsum (map (fun ps => qsum (map snd ps)) particles) + total_rate (concat sources))%Q.
Proof. exact all_deposited. Qed.
Print Assumptions C33_total.

Definition unit_min : pos := (0, 0, 0)%Q.
Definition unit_max : pos := (1, 1, 1)%Q.
Definition key_of (p : pos) : N := point_key_3d bits_3d unit_min unit_max p.
Definition mid_pos (x y z : Z) : pos := (x # 4, y # 4, z # 4)%Q.

(** Without the condition on the key the property is false: a source in the middle of
    the box, with a larger key than the only particle, is dropped without notice, even
    on a single rank. *)
Theorem C33_source_in_box_refuted : exists p s cuts loads,
  inside_3d unit_min unit_max p /\ inside_3d unit_min unit_max (s_pos s) /\ (s_rate s == 1)%Q
  /\ decompose kmax_3d max_depth_3d [[key_of p]] 1 = Some (cuts, loads)
  /\ forall nearest, set_source_terms nearest unit_min unit_max cuts [[s]] [[(p, 0%Q)]] = Some [[0%Q]].
Proof.
  exists (mid_pos 1 1 1), (Source (mid_pos 3 3 3) 1). eexists. eexists.
  split; [repeat split; vm_compute; discriminate || reflexivity|].
  split; [repeat split; vm_compute; discriminate || reflexivity|]. split; [reflexivity|].
  split; [vm_compute; reflexivity|]. intro nearest. vm_compute. reflexivity.
Qed.
Print Assumptions C33_source_in_box_refuted.

(** And the decomposition can leave a rank without particles. If such a rank owns a
    source, the program panics. *)
Definition empty_p (i : nat) : pos :=
  nth i [mid_pos 1 1 1; mid_pos 1 1 3; (1 # 4, 1 # 4, 29999 # 40000)%Q] unit_min.
Theorem C33_empty_rank_refuted : exists s cuts loads,
  inside_3d unit_min unit_max (s_pos s)
  /\ (forall i, inside_3d unit_min unit_max (empty_p i))
  /\ decompose kmax_3d max_depth_3d [[key_of (empty_p 0)]; [key_of (empty_p 1)]; [key_of (empty_p 2)]] 3 = Some (cuts, loads)
  /\ map (fun i => owner_of unit_min unit_max cuts (empty_p i)) [0; 1; 2]%nat = [0; 2; 2]%nat
  /\ forall nearest, set_source_terms nearest unit_min unit_max cuts [[s]; []; []]
       [[(empty_p 0, 0%Q)]; []; [(empty_p 1, 0%Q); (empty_p 2, 0%Q)]] = None.
Proof.
  exists (Source (mid_pos 3 3 3) 1). eexists. eexists.
  split; [repeat split; vm_compute; discriminate || reflexivity|].
  split; [intros [|[|[|[|i]]]]; repeat split; vm_compute; discriminate || reflexivity|].
  split; [vm_compute; reflexivity|]. split; [vm_compute; reflexivity|]. intro nearest. vm_compute. reflexivity.
Qed.
Print Assumptions C33_empty_rank_refuted.

(** Two ranks, two sources; the second rank's particles are (3/4,3/4,3/4) and
    (1/4,1/4,3/4). *)
Definition ex_nearest (ps : list pos) (q : pos) : nat :=
  match ps with _ :: _ :: _ => if Qle_bool (snd (fst q)) (1 # 2) then 1%nat else 0%nat | _ => 0%nat end.
Definition ex_sources : list (list source) := [[Source (mid_pos 3 3 3) 5; Source (mid_pos 1 1 3) 7]; [Source (mid_pos 1 1 1) 2]].
Definition ex_particles : list (list (pos * Q)) :=
  [[(mid_pos 1 1 1, 1%Q)]; [(mid_pos 3 3 3, 0%Q); (mid_pos 1 1 3, 0%Q)]].
Example C33_example : finds ex_nearest
  /\ match decompose kmax_3d max_depth_3d [[key_of (mid_pos 1 1 1); key_of (mid_pos 3 3 3)]; [key_of (mid_pos 1 1 3)]] 2 with
     | Some (cuts, _) => set_source_terms ex_nearest unit_min unit_max cuts ex_sources ex_particles = Some [[3%Q]; [5%Q; 7%Q]]
     | None => False
     end
  /\ forall s, In s (concat ex_sources) -> (key_of (s_pos s) <= key_of (mid_pos 1 1 3))%N.
Proof.
  split.
  - intros [|a [|b ps]] q H; [congruence|cbn; auto|]. cbn. destruct (Qle_bool _ _); auto with arith.
  - split; [vm_compute; reflexivity|]. intros s Hs. cbn in Hs.
    destruct Hs as [ <- | [ <- | [ <- | [] ] ] ]; vm_compute; discriminate.
Qed.
