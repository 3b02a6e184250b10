(** Properties C17 and C18: the domain decomposition. *)
From Coq Require Import List Arith NArith Lia Sorted.
Import ListNotations.
From Verif Require Import Decomp_Model Decomp_Spec Decomp_Proofs.
Local Open Scope N_scope.

(** C17. Whenever a decomposition is computed, from any keys below the largest
    value of the key type, there is one cut per rank, every key up to the largest
    one belongs to exactly one existing rank, and the keys of the ranks form
    contiguous intervals in increasing order, even if the cuts themselves are not
    in increasing order. *)
Theorem C17_every_key_is_owned :
  forall kmax maxd keys n cuts loads,
  (forall k, In k (concat keys) -> k < kmax) ->
  decompose kmax maxd keys n = Some (cuts, loads) ->
  length cuts = n
  /\ forall hi, In hi (concat keys) -> interval_ownership (owning_rank cuts) n hi.
Proof. exact decompose_owner'. Qed.
Print Assumptions C17_every_key_is_owned.

(** The computation succeeds if every rank has keys and no rank has a key twice. *)
Theorem C17_decomposition_succeeds :
  forall kmax maxd keys n,
  (1 <= n)%nat -> keys <> [] ->
  Forall (fun l => l <> []) keys -> Forall (StronglySorted N.lt) keys ->
  exists cuts loads, decompose kmax maxd keys n = Some (cuts, loads) /\ length loads = n.
Proof. exact decompose_some. Qed.
Print Assumptions C17_decomposition_succeeds.

(** With increasing cuts, a key is owned by the rank given by the number of cuts
    at or below it: rank [r] owns the keys from cut [r-1] up to, not including,
    cut [r]. *)
Theorem C17_owner_of_sorted_cuts :
  forall cuts k, StronglySorted N.lt cuts -> owning_rank cuts k = count_le cuts k.
Proof. exact owner_sorted. Qed.
Print Assumptions C17_owner_of_sorted_cuts.

Definition ex_keys : list (list N) := [[3; 10; 11; 40]; [1; 12; 13]; [20; 21; 22; 23; 50]].
Example C17_example :
  decompose kmax_2d max_depth_2d ex_keys 3 = Some ([11; 20; 51], [4; 4; 6])
  /\ map (owning_rank [11; 20; 51]) [1; 10; 11; 19; 20; 50] = [0; 0; 1; 1; 2; 2]%nat.
Proof. vm_compute. split; reflexivity. Qed.
Example C17_hypotheses_example :
  (forall k, In k (concat ex_keys) -> k < kmax_2d)
  /\ Forall (fun l => l <> []) ex_keys /\ Forall (StronglySorted N.lt) ex_keys.
Proof.
  split; [|split].
  - intros k Hk. cbn in Hk. unfold kmax_2d. cbn. repeat (destruct Hk as [<-|Hk]; [lia|]). destruct Hk.
  - repeat constructor; discriminate.
  - repeat constructor; lia.
Qed.
(** The cuts may come out in the wrong order (the middle of an interval with two
    odd ends is rounded down twice); rank 1 then owns nothing. *)
Example C17_unsorted_cuts_example :
  decompose kmax_2d max_depth_2d [[5; 9; 2^33 + 1]; [0; 5; 7]; [5]] 3
    = Some ([5; 4; 2^33 + 2], [4; 0; 6])
  /\ map (owning_rank [5; 4; 2^33 + 2]) [0; 3; 4; 5; 7; 2^33 + 1] = [0; 0; 2; 2; 2; 2]%nat.
Proof. vm_compute. split; reflexivity. Qed.

(** The hypothesis on the largest value cannot be dropped: with it among the keys
    the last cut coincides with it and its owner is a rank that does not exist. *)
Theorem C17_largest_key_refuted :
  exists keys cuts loads,
  decompose kmax_2d max_depth_2d keys 2 = Some (cuts, loads)
  /\ In kmax_2d (concat keys) /\ owning_rank cuts kmax_2d = 2%nat.
Proof.
  exists [[3]; [kmax_2d]]. eexists. eexists. split; [vm_compute; reflexivity|].
  split; [right; left; reflexivity|vm_compute; reflexivity].
Qed.
Print Assumptions C17_largest_key_refuted.
(** Ranks without particles, and repeated odd keys, make the decomposition panic. *)
Theorem C17_success_refuted :
  decompose kmax_3d max_depth_3d [[1; 2]; []] 2 = None
  /\ decompose kmax_3d max_depth_3d [[7; 7; 7]] 2 = None.
Proof. vm_compute. split; reflexivity. Qed.
Print Assumptions C17_success_refuted.

(** C18. The search makes at most [MAX_DEPTH] bisections for every load function,
    and stays in its range up to one key. *)
Theorem C18_search_terminates :
  forall maxd (load : N -> N) target start end_,
  start <= end_ ->
  exists c, cut_search maxd maxd (fun k => Some (load k)) target start end_ 0 = inl c
            /\ start <= c + 1 /\ c <= end_.
Proof.
  intros maxd load target start end_ H.
  destruct (cut_search_fuel maxd maxd (fun k => Some (load k)) target) with
    (start := start) (end_ := end_) (depth := 0%nat) as [c E]; [discriminate|lia|].
  exists c. split; [exact E|]. exact (cut_search_range _ _ _ _ _ _ _ _ H E).
Qed.
Print Assumptions C18_search_terminates.

(** The cut hits the target, or it is at most [(end - start) / 2^MAX_DEPTH + 4]
    keys away from the first key at which a monotone load reaches the target. *)
Theorem C18_cut_near_jump_partial :
  forall maxd (load : N -> N) target start end_ c j,
  monotone load -> start <= end_ ->
  load start < target -> target < load end_ ->
  first_reaching load target j ->
  cut_search maxd maxd (fun k => Some (load k)) target start end_ 0 = inl c ->
  load c = target \/
  (j <= c + ((end_ - start) / 2 ^ N.of_nat maxd + 4)
   /\ c <= j + ((end_ - start) / 2 ^ N.of_nat maxd + 4)).
Proof. exact cut_near_jump. Qed.
Print Assumptions C18_cut_near_jump_partial.

Definition step_load (j : N) (k : N) : N := if k <? j then 0 else 100.
Example C18_hypotheses_example :
  monotone (step_load 1000) /\ step_load 1000 10 < 50 /\ 50 < step_load 1000 (2^40)
  /\ first_reaching (step_load 1000) 50 1000
  /\ cut_search 32 32 (fun k => Some (step_load 1000 k)) 50 10 (2^40) 0 = inl 904.
Proof.
  unfold step_load, monotone, first_reaching. split; [|repeat split; try (vm_compute; congruence)].
  - intros a b Hab. destruct (N.ltb_spec a 1000), (N.ltb_spec b 1000); lia.
  - intros k Hk. destruct (N.ltb_spec k 1000); lia.
Qed.

(** The claim itself is false, for two reasons. [MAX_DEPTH] is the number of bits
    per dimension and not of the key, so a wide key range is not resolved; and the
    middle of two odd keys is rounded down twice, so the search can get stuck next
    to the jump even in a range of three keys. *)
Theorem C18_hits_target_refuted :
  (exists load target start end_ c,
     monotone load /\ start <= end_ /\ end_ < 2 ^ 64
     /\ cut_search max_depth_2d max_depth_2d (fun k => Some (load k)) target start end_ 0 = inl c
     /\ ~ hits_or_jumps load target c)
  /\ (exists load target start end_ c,
     monotone load /\ start <= end_ /\ end_ < 2 ^ 126
     /\ cut_search max_depth_3d max_depth_3d (fun k => Some (load k)) target start end_ 0 = inl c
     /\ ~ hits_or_jumps load target c)
  /\ (exists load target c,
     monotone load
     /\ cut_search max_depth_2d max_depth_2d (fun k => Some (load k)) target 5 7 0 = inl c
     /\ ~ hits_or_jumps load target c).
Proof.
  assert (Hm : forall j, monotone (step_load j)).
  { intros j a b Hab. unfold step_load. destruct (N.ltb_spec a j), (N.ltb_spec b j); lia. }
  split; [|split].
  - exists (step_load 5), 50, 0, (2^62). eexists. split; [apply Hm|]. split; [lia|].
    split; [reflexivity|]. split; [vm_compute; reflexivity|].
    unfold hits_or_jumps, step_load. vm_compute. intros [H|[H _]]; [discriminate|now apply H].
  - exists (step_load 5), 50, 0, (2^120). eexists. split; [apply Hm|]. split; [lia|].
    split; [reflexivity|]. split; [vm_compute; reflexivity|].
    unfold hits_or_jumps, step_load. vm_compute. intros [H|[H _]]; [discriminate|now apply H].
  - exists (step_load 7), 50. eexists. split; [apply Hm|].
    split; [vm_compute; reflexivity|].
    unfold hits_or_jumps, step_load. vm_compute. intros [H|[_ H]]; [discriminate|now apply H].
Qed.
Print Assumptions C18_hits_target_refuted.
