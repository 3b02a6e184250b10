(** Properties of the geometric computations: the linear solver (C51), circumcircles
    (C41), the initial simplices (C42), containment (C52), distances (C53) and the
    intersection of a line with a triangle (C54). *)
From Coq Require Import List QArith.
Import ListNotations.
From Verif Require Import LinSolve_Model LinSolve_Spec LinSolve_Proofs
  Geometry_Model Geometry_Spec Geometry_Proofs GeometrySolve_Proofs GeometryContains_Proofs GeometryTriangle_Proofs GeometryTetra_Proofs.
Local Open Scope Q_scope.

(** C51: the result satisfies all equations and nothing else does. *)
Theorem C51_sound m a xs : solve_system_of_equations m a = Some xs ->
  length xs = m /\ solves m a (fun j => nth j xs 0) /\ nonsingular m a.
Proof. exact (solver_sound m a xs). Qed.
Print Assumptions C51_sound.

Theorem C51_unique m a xs y : solve_system_of_equations m a = Some xs -> solves m a y ->
  forall j, (j < m)%nat -> y j == nth j xs 0.
Proof. exact (solver_unique m a xs y). Qed.
Print Assumptions C51_unique.

(** Every system with exactly one solution is solved. *)
Theorem C51_complete m a : nonsingular m a -> exists xs, solve_system_of_equations m a = Some xs.
Proof. exact (solver_complete m a). Qed.
Print Assumptions C51_complete.

Example C51_example :
  match solve_system_of_equations 3 [[0; 2; 1; 7]; [1; 1; 1; 6]; [2; 1; 0; 4]] with
  | Some [x; y; z] => Qeq_bool x 1 && Qeq_bool y 2 && Qeq_bool z 3
  | _ => false
  end = true.
Proof. vm_compute. reflexivity. Qed.
Example C51_example_singular : solve_system_of_equations 2 [[1; 2; 3]; [2; 4; 5]] = None.
Proof. vm_compute. reflexivity. Qed.

(** The solver with a check of the pivots gives a solution whenever it gives anything. *)
Theorem C51_checked m0 m1 m2 p : solve_3x4 m0 m1 m2 = Some p ->
  forall r, In r [m0; m1; m2] ->
  let '(a, b, c, d) := r in a * x3 p + b * y3 p + c * z3 p == d.
Proof.
  intros H r Hr. destruct (solve_3x4_sound m0 m1 m2 p H) as (H0 & H1 & H2).
  destruct Hr as [<-|[<-|[<-|[]]]]; [destruct m0 as [[[? ?] ?] ?]; exact H0|destruct m1 as [[[? ?] ?] ?]; exact H1|destruct m2 as [[[? ?] ?] ?]; exact H2].
Qed.
Print Assumptions C51_checked.

Example C51_checked_example :
  match solve_3x4 (0, 2, 1, 7) (1, 1, 1, 6) (2, 1, 0, 4) with
  | Some p => Qeq_bool (x3 p) 1 && Qeq_bool (y3 p) 2 && Qeq_bool (z3 p) 3
  | None => false
  end = true.
Proof. vm_compute. reflexivity. Qed.

(** C41: for a positively oriented triangle and the centre of its circumcircle, the test
    is positive exactly for the points strictly inside the circle, and it panics exactly
    for the points on the circle. *)
Theorem C41_circle t o d : 0 < area2 t -> circumscribed2 t o ->
  (circumcircle_contains2 t d = Some true <-> dist2_2 o d < dist2_2 o (t2p1 t))
  /\ (circumcircle_contains2 t d = Some false <-> dist2_2 o (t2p1 t) < dist2_2 o d)
  /\ (circumcircle_contains2 t d = None <-> dist2_2 o d == dist2_2 o (t2p1 t)).
Proof. exact (circumcircle2 t o d). Qed.
Print Assumptions C41_circle.

(** The computed centre has the same distance to all corners and is the only such point. *)
Theorem C41_center2 t : ~ area2 t == 0 ->
  circumscribed2 t (circumcenter2 t)
  /\ forall o, circumscribed2 t o -> x2 o == x2 (circumcenter2 t) /\ y2 o == y2 (circumcenter2 t).
Proof. intro H. split; [exact (circumcenter2_ok t H)|]. intros o Ho. exact (circumcenter2_unique t o H Ho). Qed.
Print Assumptions C41_center2.

Example C41_example2 :
  let t := T2 (P2 0 0) (P2 4 0) (P2 0 2) in
  0 < area2 t /\ circumscribed2 t (P2 2 1)
  /\ circumcircle_contains2 t (P2 3 2) = Some true
  /\ circumcircle_contains2 t (P2 5 2) = Some false
  /\ circumcircle_contains2 t (P2 4 2) = None
  /\ Qeq_bool (x2 (circumcenter2 t)) 2 = true /\ Qeq_bool (y2 (circumcenter2 t)) 1 = true.
Proof. vm_compute. repeat split; reflexivity. Qed.

(** The same in three dimensions. A point on the sphere is either reported as not inside
    (the corners of the tetrahedron) or leads to a panic. *)
Theorem C41_sphere t o e : 0 < volume6 t -> circumscribed3 t o ->
  (circumcircle_contains3 t e = Some true <-> dist2_3 o e < dist2_3 o (ttp1 t))
  /\ (circumcircle_contains3 t e = Some false -> dist2_3 o (ttp1 t) <= dist2_3 o e)
  /\ (circumcircle_contains3 t e = None -> dist2_3 o e == dist2_3 o (ttp1 t)).
Proof. exact (circumsphere t o e). Qed.
Print Assumptions C41_sphere.

(** The two branches of the test agree: what the test with an error bound answers is what
    the exact test answers. *)
Theorem C41_branches_agree t o e b : 0 < volume6 t -> circumscribed3 t o ->
  circumcircle_contains3_float t e = Some b -> circumcircle_contains3_exact t e <> None ->
  circumcircle_contains3_exact t e = Some b.
Proof.
  intros HV HO HF HN. assert (F := circumsphere_float t o e b HV HO HF).
  destruct (circumsphere_exact t o e HV HO) as (S1 & S2 & S3).
  destruct (circumcircle_contains3_exact t e) as [[]|]; [| |contradiction].
  - f_equal. symmetry. apply F. apply S1. reflexivity.
  - f_equal. destruct b; [|reflexivity]. exfalso. assert (A := proj1 F eq_refl). assert (B := proj1 S2 eq_refl).
    apply (Qlt_irrefl (dist2_3 o e)). exact (Qlt_trans _ _ _ A B).
Qed.
Print Assumptions C41_branches_agree.

Theorem C41_center3 t : ~ volume6 t == 0 ->
  circumscribed3 t (circumcenter3 t)
  /\ forall o, circumscribed3 t o ->
     x3 o == x3 (circumcenter3 t) /\ y3 o == y3 (circumcenter3 t) /\ z3 o == z3 (circumcenter3 t).
Proof. intro H. split; [exact (circumcenter3_ok t H)|]. intros o Ho. exact (circumcenter3_unique t o H Ho). Qed.
Print Assumptions C41_center3.

Example C41_example3 :
  let t := TT (P3 0 0 0) (P3 2 0 0) (P3 0 4 0) (P3 0 0 6) in
  0 < volume6 t /\ circumscribed3 t (P3 1 2 3)
  /\ circumcircle_contains3 t (P3 1 3 5) = Some true
  /\ circumcircle_contains3 t (P3 3 5 5) = Some false
  /\ circumcircle_contains3 t (P3 2 4 6) = None
  /\ circumcircle_contains3_float t (P3 1 3 5) = Some true
  /\ circumcircle_contains3_exact t (P3 1 3 5) = Some true
  /\ Qeq_bool (x3 (circumcenter3 t)) 1 = true /\ Qeq_bool (y3 (circumcenter3 t)) 2 = true /\ Qeq_bool (z3 (circumcenter3_exact t)) 3 = true.
Proof. vm_compute. repeat split; reflexivity. Qed.

(** C42: the initial triangle (tetrahedron) is positively oriented and contains every
    point of the box strictly inside, and the containment test says so. *)
Theorem C42_triangle min max p : x2 min < x2 max -> y2 min < y2 max -> in_box2 min max p ->
  0 < area2 (all_encompassing2 min max)
  /\ strictly_inside2 (all_encompassing2 min max) p
  /\ contains2 (all_encompassing2 min max) p = Some true.
Proof.
  intros Hx Hy Hp. destruct (all_encompassing2_ok min max p Hx Hy Hp) as [HA HI]. split; [exact HA|]. split; [exact HI|].
  apply contains2_ok; [|exact HI]. intro F. rewrite F in HA. discriminate HA.
Qed.
Print Assumptions C42_triangle.

Theorem C42_tetrahedron min max p : x3 min < x3 max -> y3 min < y3 max -> z3 min < z3 max -> in_box3 min max p ->
  0 < volume6 (all_encompassing3 min max)
  /\ strictly_inside3 (all_encompassing3 min max) p
  /\ contains3 (all_encompassing3 min max) p = Some true.
Proof.
  intros Hx Hy Hz Hp. destruct (all_encompassing3_ok min max p Hx Hy Hz Hp) as [HA HI]. split; [exact HA|]. split; [exact HI|].
  apply contains3_ok; [|exact HI]. intro F. rewrite F in HA. discriminate HA.
Qed.
Print Assumptions C42_tetrahedron.

Example C42_example :
  in_box3 (P3 0 0 0) (P3 1 2 3) (P3 1 2 3) /\ 0 < x3 (P3 1 2 3)
  /\ contains3 (all_encompassing3 (P3 0 0 0) (P3 1 2 3)) (P3 1 2 3) = Some true
  /\ contains3 (all_encompassing3 (P3 0 0 0) (P3 1 2 3)) (P3 4 2 3) = Some false.
Proof. vm_compute. repeat split; discriminate || reflexivity. Qed.

(** C52: the containment tests agree with geometry. *)
Theorem C52_triangle t p : ~ area2 t == 0 ->
  (contains2 t p = Some true <-> strictly_inside2 t p)
  /\ (contains2 t p = Some false <-> strictly_outside2 t p)
  /\ (contains2 t p = None <-> on_edge2 t p).
Proof. exact (contains2_ok t p). Qed.
Print Assumptions C52_triangle.

Theorem C52_degenerate t p : area2 t == 0 -> contains2 t p = None.
Proof. exact (contains2_degenerate t p). Qed.
Print Assumptions C52_degenerate.

Theorem C52_tetrahedron t p : ~ volume6 t == 0 ->
  (contains3 t p = Some true <-> strictly_inside3 t p)
  /\ (contains3 t p = Some false -> strictly_outside3 t p)
  /\ (contains3 t p = None -> on_face_plane3 t p).
Proof. exact (contains3_ok t p). Qed.
Print Assumptions C52_tetrahedron.

Example C52_example :
  let t := T2 (P2 0 0) (P2 4 0) (P2 0 4) in let s := T2 (P2 0 0) (P2 0 4) (P2 4 0) in
  contains2 t (P2 1 1) = Some true /\ contains2 t (P2 5 1) = Some false /\ contains2 t (P2 2 2) = None
  /\ contains2 s (P2 1 1) = Some true /\ contains2 (T2 (P2 0 0) (P2 1 1) (P2 2 2)) (P2 1 1) = None
  /\ ~ area2 t == 0.
Proof. vm_compute. repeat split; discriminate || reflexivity. Qed.

(** C53: [closest_point] gives a point of the triangle that is nearest to the given one. *)
Theorem C53_triangle t p : proper_triangle3 t ->
  in_triangle3 t (closest_point t p)
  /\ forall x, in_triangle3 t x -> dist2_3 p (closest_point t p) <= dist2_3 p x.
Proof. exact (closest_point_ok t p). Qed.
Print Assumptions C53_triangle.

(** [distance_to_point] is the distance to the tetrahedron, inside and outside. *)
Theorem C53_tetrahedron t p d : ~ volume6 t == 0 -> tetra_distance2 t p = Some d ->
  (exists y, in_tetra t y /\ dist2_3 p y == d) /\ forall x, in_tetra t x -> d <= dist2_3 p x.
Proof. exact (tetra_distance_ok t p d). Qed.
Print Assumptions C53_tetrahedron.

Example C53_example :
  let t := T3 (P3 0 0 0) (P3 4 0 0) (P3 0 4 0) in
  proper_triangle3 t
  /\ Qeq_bool (x3 (closest_point t (P3 5 5 1))) 2 = true
  /\ Qeq_bool (x3 (closest_point t (P3 1 1 7))) 1 = true
  /\ Qeq_bool (x3 (closest_point t (P3 9 1 7))) 4 = true
  /\ match tetra_distance2 (TT (P3 0 0 0) (P3 4 0 0) (P3 0 4 0) (P3 0 0 4)) (P3 1 1 0) with Some _ => False | None => True end
  /\ match tetra_distance2 (TT (P3 0 0 0) (P3 4 0 0) (P3 0 4 0) (P3 0 0 4)) (P3 1 (-3) 1) with Some d => Qeq_bool d 9 = true | None => False end.
Proof. vm_compute. repeat split; try reflexivity. intros (_ & _ & H). discriminate H. Qed.

(** C54: the answer for a line and a triangle says which weights of the common point are
    negative, and the computation panics exactly when a weight is zero or the line is
    parallel to the triangle. *)
Theorem C54_line t q1 q2 : ~ parallel t q1 q2 ->
  exists l1 l2 l3, line_meets t q1 q2 l1 l2 l3
    /\ (forall m1 m2 m3, line_meets t q1 q2 m1 m2 m3 -> l1 == m1 /\ l2 == m2 /\ l3 == m3)
    /\ (forall i, get_line_intersection_type t q1 q2 = Some i <-> describes i l1 l2 l3)
    /\ (get_line_intersection_type t q1 q2 = None <-> l1 == 0 \/ l2 == 0 \/ l3 == 0).
Proof.
  intro H. destruct (line_intersection_ok t q1 q2 H) as (l1 & l2 & l3 & M & A & B).
  exists l1, l2, l3. split; [exact M|]. split; [|split; [exact A|exact B]].
  intros m1 m2 m3 Hm. exact (line_meets_unique t q1 q2 l1 l2 l3 m1 m2 m3 H M Hm).
Qed.
Print Assumptions C54_line.

Theorem C54_parallel t q1 q2 : parallel t q1 q2 -> get_line_intersection_type t q1 q2 = None.
Proof. exact (line_intersection_parallel t q1 q2). Qed.
Print Assumptions C54_parallel.

Example C54_example :
  let t := T3 (P3 0 0 0) (P3 4 0 0) (P3 0 4 0) in
  get_line_intersection_type t (P3 1 1 (-1)) (P3 1 1 3) = Some Inside
  /\ get_line_intersection_type t (P3 3 3 (-1)) (P3 3 3 3) = Some (OutsideOneEdge One)
  /\ get_line_intersection_type t (P3 (-1) 1 (-1)) (P3 (-1) 1 3) = Some (OutsideOneEdge Two)
  /\ get_line_intersection_type t (P3 (-1) (-1) (-1)) (P3 (-1) (-1) 3) = Some (OutsideTwoEdges Two Three)
  /\ get_line_intersection_type t (P3 1 1 1) (P3 2 1 1) = None
  /\ ~ parallel t (P3 1 1 (-1)) (P3 1 1 3).
Proof. vm_compute. repeat split; discriminate || reflexivity. Qed.
