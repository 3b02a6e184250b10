(** Properties of the Voronoi cells of a set of points in the plane: the faces are those towards the neighbours in the
    triangulation (C61), a cell contains the places that are nearest to its point (C62), the volume is the sum over the faces
    (C63), and two neighbours see the same face (C64). *)
From Coq Require Import List Arith QArith.
From Verif Require Import Geometry_Model Geometry_Spec Delaunay_Model Delaunay_Spec DelaunayGlobal_Spec DelaunayRemap_Model
  Voronoi_Model Voronoi_Spec Voronoi_Proofs VoronoiConstruct_Proofs.
Import ListNotations.
Local Open Scope Q_scope.

(** C61: the construction of the cells does not panic, and every cell has exactly one face for every neighbour. *)
Theorem C61_cells (C : Type) (boundary : C) ids min max pop l s : x2 min < x2 max -> y2 min < y2 max -> construct2 min max pop l = Some s ->
  exists cells, construct_voronoi C boundary (table2 min max l) is_corner (own_cells ids) s = Some cells /\
    Forall2 (cell_of (table2 min max l) s (own_types boundary ids)) (seq 3 (length l)) cells.
Proof. exact (own_cells_ok C boundary ids min max pop l s). Qed.
Print Assumptions C61_cells.

Definition example_min : point2 := P2 0 0.
Definition example_max : point2 := P2 4 4.
Definition example_list : list point2 := [P2 1 1; P2 2 3; P2 (7#2) (1#2); P2 (7#3) 2; P2 (3#2) (7#2); P2 (10#3) (19#6)].
Definition example_cells (min max : point2) (l : list point2) : list (cell nat) :=
  match construct2 min max (fun p _ => p) l with
  | Some s => match construct_voronoi nat 0%nat (table2 min max l) is_corner (own_cells S) s with Some cells => cells | None => [] end
  | None => []
  end.
Example C61_example : map (fun c => (index c, map connection (cell_faces c), is_infinite c)) (example_cells example_min example_max example_list) =
  [(1, [3; 4; 2; 5; 0], true); (2, [1; 5; 6; 4], false); (3, [0; 0; 6; 4; 1], true); (4, [1; 3; 6; 2], false); (5, [1; 0; 0; 6; 2], true);
   (6, [0; 5; 2; 4; 3; 0], true)]%nat.
Proof. vm_compute. reflexivity. Qed.

(** C62: [contains] holds exactly for the places that are nowhere closer to another point (in a square extent). *)
Theorem C62_contains (C : Type) (boundary : C) ids min max pop l s cells k c x : x2 min < x2 max -> y2 min < y2 max -> construct2 min max pop l = Some s ->
  x2 max - x2 min == y2 max - y2 min ->
  construct_voronoi C boundary (table2 min max l) is_corner (own_cells ids) s = Some cells -> nth_error cells k = Some c ->
  cell_contains c x = true <-> nearest (table2 min max l) (length l + 3) (3 + k) x.
Proof. intros Hx Hy B SQ. exact (own_contains C boundary ids min max pop l s Hx Hy B SQ cells k c x). Qed.
Print Assumptions C62_contains.
(** If the extent is not a square, a cell in general contains places that are closer to another point. *)
Theorem C62_contains_refuted : exists min max pop l s cells k j c x, x2 min < x2 max /\ y2 min < y2 max /\ construct2 min max pop l = Some s /\
  construct_voronoi nat 0%nat (table2 min max l) is_corner (own_cells S) s = Some cells /\ nth_error cells k = Some c /\
  cell_contains c x = true /\ (j < length l)%nat /\ dist2_2 x (nth j l (P2 0 0)) < dist2_2 x (nth k l (P2 0 0)).
Proof.
  exists (P2 0 0), (P2 4 1), (fun p _ => p), [P2 1 (1#2); P2 3 (1#2); P2 2 (9#10); P2 2 (1#11)]. eexists. eexists. exists 3%nat, 2%nat. eexists. exists (P2 (13#8) (1#2)).
  split; [reflexivity|]. split; [reflexivity|]. split; [vm_compute; reflexivity|]. split; [vm_compute; reflexivity|].
  split; [reflexivity|]. split; [vm_compute; reflexivity|]. split; [vm_compute; repeat constructor|]. vm_compute. reflexivity.
Qed.
Print Assumptions C62_contains_refuted.
Example C62_example : x2 example_min < x2 example_max /\ x2 example_max - x2 example_min == y2 example_max - y2 example_min /\
  map (fun c => cell_contains c (P2 2 2)) (example_cells example_min example_max example_list) = [false; false; false; true; false; false].
Proof. vm_compute. repeat split; reflexivity. Qed.

(** C63: the volume is the sum of the areas of the triangles between the point and the faces, in particular positive. *)
Theorem C63_volume (C : Type) (boundary : C) ids min max pop l s cells k c : x2 min < x2 max -> y2 min < y2 max -> construct2 min max pop l = Some s ->
  x2 max - x2 min == y2 max - y2 min ->
  construct_voronoi C boundary (table2 min max l) is_corner (own_cells ids) s = Some cells -> nth_error cells k = Some c ->
  volume_of_faces c /\ (3 <= length (cell_faces c))%nat /\ 0 < cell_volume c.
Proof. intros Hx Hy B SQ. exact (own_volume_pos C boundary ids min max pop l s Hx Hy B SQ cells k c). Qed.
Print Assumptions C63_volume.
Example C63_example : map (fun c => Qred (cell_volume c)) (example_cells example_min example_max example_list) =
  [161513 # 5472; 1981 # 1296; 3847543549 # 59398864; 14912 # 5871; 149020601 # 3401352; 286936310519 # 6002076564].
Proof. vm_compute. reflexivity. Qed.

(** C64: the faces between two neighbours have the same size and opposite normals. *)
Theorem C64_mutual (C : Type) (boundary : C) ids min max pop l s cells j k c d : x2 min < x2 max -> y2 min < y2 max -> construct2 min max pop l = Some s ->
  construct_voronoi C boundary (table2 min max l) is_corner (own_cells ids) s = Some cells -> nth_error cells j = Some c -> nth_error cells k = Some d ->
  neighbour s (3 + j) (3 + k) -> mutual_faces (table2 min max l) s (own_types boundary ids) (3 + j) (3 + k) c d.
Proof. intros Hx Hy B. exact (own_mutual C boundary ids min max pop l s Hx Hy B cells j k c d). Qed.
Print Assumptions C64_mutual.
Example C64_example : match construct2 example_min example_max (fun p _ => p) example_list with
  | Some s => existsb (fun e => existsb (Nat.eqb 4) (points_of (snd e)) && existsb (Nat.eqb 6) (points_of (snd e))) (tetras s) = true
  | None => False
  end.
Proof. vm_compute. reflexivity. Qed.
