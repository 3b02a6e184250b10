(** Properties of the incremental construction of the triangulation: consistency in two dimensions
    (C36) and in three (C37), and the search for the tetra that contains a point (C55). *)
From Coq Require Import List Arith QArith.
From Verif Require Import Geometry_Model Delaunay_Model Delaunay_Spec DelaunayGeo_Model DelaunayGeo_Proofs DelaunayFinal_Proofs.
Import ListNotations.
Local Open Scope nat_scope.

(** C36: whatever the predicates answer (as long as no circumcircle strictly contains its own
    corners) and in whatever order the search visits the triangles, the triangulation is
    consistent after any number of insertions. *)
Theorem C36_consistent in_circle inside pop n s :
  corners_not_inside in_circle -> built2 in_circle inside pop n s ->
  consistent 2 s /\ oriented2 s /\ connected s.
Proof. intro C. exact (built2_consistent in_circle inside pop C n s). Qed.
Print Assumptions C36_consistent.

Theorem C36_counts in_circle inside pop n s :
  corners_not_inside in_circle -> built2 in_circle inside pop n s ->
  num_points s = n + 3 /\ length (tetras s) = 2 * n + 1 /\ length (faces s) = 3 * n + 3.
Proof. intro C. exact (built2_counts in_circle inside pop C n s). Qed.
Print Assumptions C36_counts.

(** The triangles reported by an insertion that still exist are exactly those around the new
    point, and for each of them the test has found that the point across the opposite edge is not
    in the circumcircle. *)
Theorem C36_reported in_circle inside pop n s p new s' :
  corners_not_inside in_circle -> built2 in_circle inside pop n s ->
  insert split2 flip2 in_circle inside pop s = Some (p, new, s') ->
  p = num_points s /\
  (forall i t, In (i, t) (tetras s') -> (In i new <-> In p (points_of t))) /\
  (forall i t fi j q, In (i, t) (tetras s') -> In (p, fi) t -> opposing fi = Some (Conn j q) ->
     In q (points_of t) \/ in_circle (points_of t) q = Some false).
Proof. intro C. exact (built2_step in_circle inside pop C n s p new s'). Qed.
Print Assumptions C36_reported.

(** An insertion succeeds if the predicates do not panic and some triangle contains the point. *)
Theorem C36_total in_circle inside pop n s :
  corners_not_inside in_circle -> built2 in_circle inside pop n s ->
  (forall ps q, in_circle ps q <> None) ->
  (forall i t, In (i, t) (tetras s) -> inside (points_of t) (num_points s) <> None) ->
  (exists i t, In (i, t) (tetras s) /\ inside (points_of t) (num_points s) = Some true) ->
  exists new s', insert split2 flip2 in_circle inside pop s = Some (num_points s, new, s').
Proof. intro C. exact (built2_total in_circle inside pop C n s). Qed.
Print Assumptions C36_total.

(** The loop of flip checks stops: the bound on its rounds in the model is never what ends it. *)
Theorem C36_terminates in_circle inside pop n s old t new1 s1 fuel :
  corners_not_inside in_circle -> built2 in_circle inside pop n s -> In (old, t) (tetras s) ->
  split2 (push_point s) old (num_points s) = Some (new1, s1) ->
  length new1 + 3 * length (tetras s1) <= fuel ->
  perform_flip_checks flip2 in_circle fuel s1 (num_points s) [] new1 =
  perform_flip_checks flip2 in_circle (length new1 + 3 * length (tetras s1)) s1 (num_points s) [] new1.
Proof. intro C. exact (built2_rounds in_circle inside pop C n s old t new1 s1 fuel). Qed.
Print Assumptions C36_terminates.

(** With the predicates of the code. *)
Theorem C36_geometry pts pop n s : built2 (circle2 pts) (inside2 pts) pop n s ->
  consistent 2 s /\ oriented2 s /\ connected s /\
  num_points s = n + 3 /\ length (tetras s) = 2 * n + 1 /\ length (faces s) = 3 * n + 3.
Proof.
  intro H. destruct (C36_consistent _ _ _ _ _ (circle2_corners pts) H) as [A [B C]].
  destruct (C36_counts _ _ _ _ _ (circle2_corners pts) H). auto.
Qed.
Print Assumptions C36_geometry.

Definition example_points2 (i : nat) : point2 :=
  nth i [P2 (-10) (-10); P2 30 (-10); P2 (-10) 30; P2 1 1; P2 2 3; P2 4 (1#2); P2 (7#3) 2;
         P2 (3#2) (7#2); P2 5 5; P2 (11#2) (1#3)] (P2 0 0).
Definition example_run2 (n : nat) : option triangulation :=
  match all_encompassing_2d with
  | Some s => insert_many split2 flip2 (circle2 example_points2) (inside2 example_points2) (fun p _ => p) n s
  | None => None
  end.
Example C36_example n s : example_run2 n = Some s ->
  built2 (circle2 example_points2) (inside2 example_points2) (fun p _ => p) n s.
Proof.
  unfold example_run2. intro E. destruct all_encompassing_2d as [s0|] eqn:E0; [|discriminate].
  exists s0. split; [exact E0|exact E].
Qed.
Example C36_example_size :
  match example_run2 7 with Some s => length (tetras s) = 15 /\ length (faces s) = 24 | None => False end.
Proof. vm_compute. auto. Qed.
(** A flip happens in this run: the first insertion makes three triangles, later ones renumber more. *)
Example C36_example_flips :
  match example_run2 7 with Some s => Nat.ltb (1 + 3 * 7) (next_tetra s) | None => false end = true.
Proof. vm_compute. reflexivity. Qed.
(** Predicates as in [C36_total]: nothing is ever inside a circumcircle, every triangle contains every point. *)
Example C36_total_example :
  corners_not_inside (fun _ _ => Some false) /\
  exists s, built2 (fun _ _ => Some false) (fun _ _ => Some true) (fun p _ => p) 3 s /\ length (tetras s) = 7.
Proof. split; [intros ps p _; discriminate|]. eexists. split; [eexists; split; vm_compute; reflexivity|reflexivity]. Qed.

(** C37: the same in three dimensions, with flips of two tetrahedra into three and of three into two. *)
Theorem C37_consistent crossing in_circle inside pop n s :
  corners_not_inside in_circle -> built3 crossing in_circle inside pop n s ->
  consistent 3 s /\ oriented3 s /\ connected s.
Proof. intro C. exact (built3_consistent crossing in_circle inside pop C n s). Qed.
Print Assumptions C37_consistent.

Theorem C37_counts crossing in_circle inside pop n s :
  corners_not_inside in_circle -> built3 crossing in_circle inside pop n s ->
  num_points s = n + 4 /\ length (faces s) = 2 * length (tetras s) + 2.
Proof. intro C. exact (built3_counts crossing in_circle inside pop C n s). Qed.
Print Assumptions C37_counts.

Theorem C37_reported crossing in_circle inside pop n s p new s' :
  corners_not_inside in_circle -> built3 crossing in_circle inside pop n s ->
  insert split3 (flip3 crossing) in_circle inside pop s = Some (p, new, s') ->
  p = num_points s /\ (forall i t, In (i, t) (tetras s') -> (In i new <-> In p (points_of t))).
Proof. intro C. exact (built3_step crossing in_circle inside pop C n s p new s'). Qed.
Print Assumptions C37_reported.

Theorem C37_terminates crossing in_circle inside pop n s old t new1 s1 fuel :
  corners_not_inside in_circle -> built3 crossing in_circle inside pop n s -> In (old, t) (tetras s) ->
  split3 (push_point s) old (num_points s) = Some (new1, s1) ->
  length new1 + 3 * length (tetras s1) <= fuel ->
  perform_flip_checks (flip3 crossing) in_circle fuel s1 (num_points s) [] new1 =
  perform_flip_checks (flip3 crossing) in_circle (length new1 + 3 * length (tetras s1)) s1 (num_points s) [] new1.
Proof. intro C. exact (built3_rounds crossing in_circle inside pop C n s old t new1 s1 fuel). Qed.
Print Assumptions C37_terminates.

(** The split never panics. A flip panics only if the test of the line does, or if a tetra next to the
    crossed edge that the code takes for granted does not exist because the face is on the boundary. *)
Theorem C37_split_total crossing in_circle inside pop n s old t :
  corners_not_inside in_circle -> built3 crossing in_circle inside pop n s -> In (old, t) (tetras s) ->
  split3 (push_point s) old (num_points s) <> None.
Proof. intro C. exact (built3_split_total crossing in_circle inside pop C n s old t). Qed.
Print Assumptions C37_split_total.

Theorem C37_flip_panics crossing in_circle inside pop n s ct t c fc oj q :
  corners_not_inside in_circle -> built3 crossing in_circle inside pop n s ->
  In (ct, t) (tetras s) -> In (c, fc) t -> opposing fc = Some (Conn oj q) -> ~ In q (points_of t) ->
  flip3 crossing s ct (face fc) = None ->
  exists ps, In (face fc, ps) (faces s) /\
    (crossing ps c q = None \/
     exists e u o e1 e2 g1 g2, crossing ps c q = Some (OutsideOneEdge e) /\ In (oj, u) (tetras s) /\ turned o e1 e2 ps /\
       In (o, g1) t /\ In (o, g2) u /\ (opposing g1 = None \/ opposing g2 = None)).
Proof. intro C. exact (built3_flip_fails crossing in_circle inside pop C n s ct t c fc oj q). Qed.
Print Assumptions C37_flip_panics.

Theorem C37_geometry pts pop n s : built3 (crossing3 pts) (circle3 pts) (inside3 pts) pop n s ->
  consistent 3 s /\ oriented3 s /\ connected s /\
  num_points s = n + 4 /\ length (faces s) = 2 * length (tetras s) + 2.
Proof.
  intro H. destruct (C37_consistent _ _ _ _ _ _ (circle3_corners pts) H) as [A [B C]].
  destruct (C37_counts _ _ _ _ _ _ (circle3_corners pts) H). auto.
Qed.
Print Assumptions C37_geometry.

Definition example_points3 (i : nat) : point3 :=
  nth i [P3 (-10) (-10) (-10); P3 50 (-10) (-10); P3 (-10) 50 (-10); P3 (-10) (-10) 50; P3 1 1 1;
         P3 2 3 (5#2); P3 4 (1#2) 0; P3 (7#3) 2 1; P3 (3#2) (7#2) 3; P3 5 (21#4) (9#4); P3 (11#2) (1#3) 4] (P3 0 0 0).
Definition example_run3 (n : nat) : option triangulation :=
  match all_encompassing_3d with
  | Some s => insert_many split3 (flip3 (crossing3 example_points3)) (circle3 example_points3) (inside3 example_points3)
                (fun p _ => p) n s
  | None => None
  end.
Example C37_example n s : example_run3 n = Some s ->
  built3 (crossing3 example_points3) (circle3 example_points3) (inside3 example_points3) (fun p _ => p) n s.
Proof.
  unfold example_run3. intro E. destruct all_encompassing_3d as [s0|] eqn:E0; [|discriminate].
  exists s0. split; [exact E0|exact E].
Qed.
(** Flips of both kinds happen: the number of tetrahedra is not the one after splits only, and more
    tetrahedra were made than remain. *)
Example C37_example_size :
  match example_run3 6 with
  | Some s => length (tetras s) = 24 /\ length (faces s) = 50 /\ next_tetra s = 65
  | None => False
  end.
Proof. vm_compute. auto. Qed.

(** C55: the search finds a tetra that contains the point, reports that there is none only if none
    does, and panics only if the predicate does for some tetra. *)
Theorem C55_locate2 in_circle inside pop n s p :
  corners_not_inside in_circle -> built2 in_circle inside pop n s ->
  match find_containing_tetra inside pop s p with
  | Some (Some i) => exists t, In (i, t) (tetras s) /\ inside (points_of t) p = Some true
  | Some None => forall i t, In (i, t) (tetras s) -> inside (points_of t) p = Some false
  | None => exists i t, In (i, t) (tetras s) /\ inside (points_of t) p = None
  end.
Proof. intro C. exact (built2_locate in_circle inside pop C n s p). Qed.
Print Assumptions C55_locate2.

Theorem C55_locate3 crossing in_circle inside pop n s p :
  corners_not_inside in_circle -> built3 crossing in_circle inside pop n s ->
  match find_containing_tetra inside pop s p with
  | Some (Some i) => exists t, In (i, t) (tetras s) /\ inside (points_of t) p = Some true
  | Some None => forall i t, In (i, t) (tetras s) -> inside (points_of t) p = Some false
  | None => exists i t, In (i, t) (tetras s) /\ inside (points_of t) p = None
  end.
Proof. intro C. exact (built3_locate crossing in_circle inside pop C n s p). Qed.
Print Assumptions C55_locate3.

Example C55_example :
  match example_run2 6 with
  | Some s => last_insertion s <> None /\
              find_containing_tetra (inside2 example_points2) (fun p _ => p) s 9 <> Some None /\
              find_containing_tetra (inside2 example_points2) (fun p _ => p) s 9 <> None
  | None => False
  end.
Proof. vm_compute. repeat split; discriminate. Qed.
