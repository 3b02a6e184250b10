(** Properties C24 and C25: the particle tree and its radius search. *)
From Coq Require Import List Arith QArith Permutation.
Import ListNotations.
From Verif Require Import Box_Model Box_Spec Tree_Model Tree_Spec Tree_Proofs.
Local Open Scope nat_scope.

(** C24. Building the tree from any particles inside its extent, coincident or not,
    succeeds with a recursion depth bounded by the maximum depth. The leaves hold
    every particle exactly once, iterating the tree yields every particle exactly
    once, counts and extents are right at every node, and a leaf above the maximum
    depth holds at most one more than the configured number. *)
Theorem C24_tree_content_3d : forall cfg fuel e ps,
  max_depth cfg < fuel -> Forall (fun p => contains3 e (snd p) = true) ps ->
  exists t n, build3 cfg fuel ps e = Some t
    /\ Permutation (contents t) ps /\ counts_right t
    /\ extents_right (fun e p => contains3 e (snd p)) t
    /\ depth_limited (max_depth cfg) t /\ leaves_limited (max_depth cfg) (S (max_per_leaf cfg)) t
    /\ forall f, n <= f -> exists r, iter_all_particles 8 f t = Some r /\ Permutation r ps.
Proof. exact tree3. Qed.
Print Assumptions C24_tree_content_3d.

Theorem C24_tree_content_2d : forall cfg fuel e ps,
  max_depth cfg < fuel -> Forall (fun p => contains2 e (snd p) = true) ps ->
  exists t n, build2 cfg fuel ps e = Some t
    /\ Permutation (contents t) ps /\ counts_right t
    /\ extents_right (fun e p => contains2 e (snd p)) t
    /\ depth_limited (max_depth cfg) t /\ leaves_limited (max_depth cfg) (S (max_per_leaf cfg)) t
    /\ forall f, n <= f -> exists r, iter_all_particles 4 f t = Some r /\ Permutation r ps.
Proof. exact tree2. Qed.
Print Assumptions C24_tree_content_2d.

Definition ex_box3 : extent3 := E3 (V3 0 0 0) (V3 1 1 1).
Definition ex_cfg : config := {| max_depth := 4; max_per_leaf := 1 |}.
(** Three coincident particles and one apart. *)
Definition ex_particles : list (nat * vec3) :=
  [(0, V3 (1#3) (1#3) (1#3)); (1, V3 (1#3) (1#3) (1#3)); (2, V3 (1#3) (1#3) (1#3));
   (3, V3 (9#10) (1#10) 1)].
Example C24_example :
  Forall (fun p => contains3 ex_box3 (snd p) = true) ex_particles
  /\ match build3 ex_cfg 5 ex_particles ex_box3 with
     | Some t => data_of _ _ t = 4
                 /\ option_map (map fst) (iter_all_particles 8 200 t) = Some [0; 1; 2; 3]
     | None => False
     end.
Proof. split; [repeat constructor|]. vm_compute. split; reflexivity. Qed.

(** The configured maximum itself is exceeded: a leaf is split only when a particle
    is inserted into a leaf that is already above the limit. *)
Theorem C24_leaf_limit_refuted :
  exists cfg e ps t, Forall (fun p => contains3 e (snd p) = true) ps
  /\ build3 cfg (S (max_depth cfg)) ps e = Some t
  /\ ~ leaves_limited (max_depth cfg) (max_per_leaf cfg) t.
Proof.
  exists ex_cfg, ex_box3, (firstn 2 ex_particles), (Leaf ex_box3 2 (firstn 2 ex_particles)).
  split; [repeat constructor|]. split; [vm_compute; reflexivity|].
  intro H. specialize (H 0 ex_box3 2 (firstn 2 ex_particles) (subtree_self _)).
  specialize (H ltac:(vm_compute; repeat constructor)). vm_compute in H.
  inversion H as [|? H1]. inversion H1.
Qed.
Print Assumptions C24_leaf_limit_refuted.

(** C25. For every box, particles in it, query point (inside or outside) and radius,
    the search returns exactly the particles that have an image, shifted by at most
    one box length per axis, closer than the radius; each exactly once. For query
    points at most half a box length outside of the box the same holds for images
    shifted by any number of box lengths. *)
Theorem C25_search_exact_3d : forall cfg fuel b ps pos radius, proper3 b ->
  max_depth cfg < fuel -> Forall (fun p => contains3 b (snd p) = true) ps ->
  exists t n, build3 cfg fuel ps b = Some t
    /\ forall f, n <= f -> exists r, search3 b pos radius f t = Some r
         /\ selection (fun p => near3 b pos radius (snd p)) ps r
         /\ (near_box3 b pos -> selection (fun p => near3_any b pos radius (snd p)) ps r).
Proof. exact search3_selects. Qed.
Print Assumptions C25_search_exact_3d.

Theorem C25_search_exact_2d : forall cfg fuel b ps pos radius, proper2 b ->
  max_depth cfg < fuel -> Forall (fun p => contains2 b (snd p) = true) ps ->
  exists t n, build2 cfg fuel ps b = Some t
    /\ forall f, n <= f -> exists r, search2 b pos radius f t = Some r
         /\ selection (fun p => near2 b pos radius (snd p)) ps r
         /\ (near_box2 b pos -> selection (fun p => near2_any b pos radius (snd p)) ps r).
Proof. exact search2_selects. Qed.
Print Assumptions C25_search_exact_2d.

(** Across a periodic boundary, and for a query point outside of the box. *)
Example C25_example :
  proper3 ex_box3
  /\ match build3 ex_cfg 5 ex_particles ex_box3 with
     | Some t =>
         option_map (map fst) (search3 ex_box3 (V3 (1#20) (1#10) (1#20)) (1#4) 200 t) = Some [3]
         /\ option_map (map fst) (search3 ex_box3 (V3 (4#3) (1#3) (-2#3)) (1#4) 200 t) = Some [0; 1; 2]
         /\ option_map (map fst) (search3 ex_box3 (V3 (7#3) (1#3) (1#3)) (1#4) 200 t) = Some []
     | None => False
     end.
Proof. split; [repeat split|]. vm_compute. repeat split. Qed.
