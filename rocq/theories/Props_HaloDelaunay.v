(** C60: the grid does not depend on the number of ranks. The triangles around the particles of a rank are the
    triangles around the same particles in the triangulation of all particles and all of their periodic images. *)
From Coq Require Import List Arith QArith Qround Lqa Lia Permutation Setoid.
From Verif Require Geometry_Model.
From Verif Require Import Geometry_Spec Box_Model Tree_Model Delaunay_Model Delaunay_Spec DelaunayGeo_Model DelaunayGlobal_Spec
  Halo_Model Halo_Spec HaloGeo_Model HaloGeo_Spec HaloDelaunay_Spec HaloDelaunay_Model HaloDelaunay_Proofs.
Import ListNotations.
Local Open Scope nat_scope.

(** In a square box with the initial triangle and the coordinates of the code. *)
Theorem C60_same_triangles : forall ranks cfg build_fuel search_fuel pop box particles circumcircle characteristic_length chunk_size pop' l whole fuel w w' r s p p',
  distributed2 ranks box particles -> max_depth cfg < build_fuel ->
  (x2 (max2 box) - x2 (min2 box) == y2 (max2 box) - y2 (min2 box))%Q ->
  covers_circles2 to_point2 circumcircle -> all_images2 box particles l -> whole2 box pop' l = Some whole ->
  starts_from2 ranks pop particles (box_remap2 box) (box_outer2 box) w ->
  run2 ranks cfg build_fuel search_fuel pop box particles (box_remap2 box) circumcircle characteristic_length chunk_size fuel w = Some (Done w') ->
  nth_error w' r = Some s -> nth_error (kinds vec2 wrap2 s) p = Some Inner ->
  (exists x x', nth_error (points vec2 wrap2 s) p = Some x /\ nth_error (box_outer2 box ++ l) p' = Some x' /\ same_position x x') ->
  same_triangles_around (points vec2 wrap2 s) (tri vec2 wrap2 s) p (box_outer2 box ++ l) whole p'.
Proof. exact star_box. Qed.
Print Assumptions C60_same_triangles.

(** For any initial triangle and any coordinates in which the search circles cover the circumcircles. *)
Theorem C60_any_coordinates : forall ranks cfg build_fuel search_fuel pop box particles remap circumcircle characteristic_length chunk_size outer pop' l whole fuel w w' r s p p',
  distributed2 ranks box particles -> max_depth cfg < build_fuel -> length outer = 3 ->
  (0 < area2 (shape2 (positions2 remap outer) 0 1 2))%Q -> (forall p q, same_position p q <-> same_point (remap p) (remap q)) ->
  covers_circles2 remap circumcircle -> all_images2 box particles l ->
  built2 (circle2 (positions2 remap (outer ++ l))) (inside2 (positions2 remap (outer ++ l))) pop' (length l) whole ->
  starts_from2 ranks pop particles remap outer w ->
  run2 ranks cfg build_fuel search_fuel pop box particles remap circumcircle characteristic_length chunk_size fuel w = Some (Done w') ->
  nth_error w' r = Some s -> nth_error (kinds vec2 wrap2 s) p = Some Inner ->
  (exists x x', nth_error (points vec2 wrap2 s) p = Some x /\ nth_error (outer ++ l) p' = Some x' /\ same_position x x') ->
  same_triangles_around (points vec2 wrap2 s) (tri vec2 wrap2 s) p (outer ++ l) whole p'.
Proof. exact star_built. Qed.
Print Assumptions C60_any_coordinates.

(** Two ranks agree on the triangles that have particles of both ranks as corners. *)
Theorem C60_ranks_agree : forall ranks cfg build_fuel search_fuel pop box particles circumcircle characteristic_length chunk_size pop' l whole fuel w w'
    r1 s1 r2 s2 p1 q1 c1 p2,
  distributed2 ranks box particles -> max_depth cfg < build_fuel ->
  (x2 (max2 box) - x2 (min2 box) == y2 (max2 box) - y2 (min2 box))%Q ->
  covers_circles2 to_point2 circumcircle -> all_images2 box particles l -> whole2 box pop' l = Some whole ->
  starts_from2 ranks pop particles (box_remap2 box) (box_outer2 box) w ->
  run2 ranks cfg build_fuel search_fuel pop box particles (box_remap2 box) circumcircle characteristic_length chunk_size fuel w = Some (Done w') ->
  nth_error w' r1 = Some s1 -> nth_error w' r2 = Some s2 ->
  nth_error (kinds vec2 wrap2 s1) p1 = Some Inner -> nth_error (kinds vec2 wrap2 s2) p2 = Some Inner ->
  let same v u := exists x x', nth_error (points vec2 wrap2 s1) v = Some x /\ nth_error (points vec2 wrap2 s2) u = Some x' /\ same_position x x' in
  is_triangle (tri vec2 wrap2 s1) p1 q1 c1 -> same q1 p2 ->
  exists c2 q2, is_triangle (tri vec2 wrap2 s2) p2 c2 q2 /\ same c1 c2 /\ same p1 q2.
Proof. exact ranks_agree. Qed.
Print Assumptions C60_ranks_agree.

(** The exact center with a radius that is smaller than the true one by less than the safety factor is enough. *)
Theorem C60_exact_circles : forall circumcircle,
  (forall a b c center radius, ~ (area2 (Geometry_Model.T2 (to_point2 a) (to_point2 b) (to_point2 c)) == 0)%Q ->
     circumcircle [a; b; c] = (center, radius) ->
     circumscribed2 (Geometry_Model.T2 (to_point2 a) (to_point2 b) (to_point2 c)) (to_point2 center) /\ (0 < radius)%Q /\
     (dist2_2 (to_point2 center) (to_point2 a) <= (radius * search_safety_factor) * (radius * search_safety_factor))%Q) ->
  covers_circles2 to_point2 circumcircle.
Proof. exact exact_covers. Qed.
Print Assumptions C60_exact_circles.

(** Two ranks with five particles. *)
Definition ex_box : extent2 := E2 (V2 0 0) (V2 40 40).
Definition ex_particles (r : nat) : list (nat * vec2) :=
  match r with
  | 0 => [(0, V2 5 5); (1, V2 12 19); (2, V2 18 37)]
  | 1 => [(0, V2 28 13); (1, V2 35 29)]
  | _ => []
  end.

Definition ex_cfg : config := {| max_depth := 10; max_per_leaf := 4 |}.
Definition ex_pop (n : nat) (l : list nat) : nat := hd 0 l.
(* all particles, then the images of one kind after the other *)
Definition ex_all : list vec2 :=
  flat_map (fun k => map (fun x => nth k (map snd (images2 ex_box (snd x))) (V2 0 0)) (ex_particles 0 ++ ex_particles 1)) (seq 0 9).
(* the center of the circumcircle and an upper bound of the radius *)
Definition ex_circumcircle (l : list vec2) : vec2 * Q :=
  match l with
  | [a; b; c] =>
    let bx := (x2 b - x2 a)%Q in let b_y := (y2 b - y2 a)%Q in
    let cx := (x2 c - x2 a)%Q in let cy := (y2 c - y2 a)%Q in
    let d := (2 * (bx * cy - b_y * cx))%Q in
    let ux := ((cy * (bx * bx + b_y * b_y) - b_y * (cx * cx + cy * cy)) / d)%Q in
    let uy := ((bx * (cx * cx + cy * cy) - cx * (bx * bx + b_y * b_y)) / d)%Q in
    (V2 (Qred (x2 a + ux)) (Qred (y2 a + uy)), (Z.sqrt (Qfloor (ux * ux + uy * uy)) + 1 # 1)%Q)
  | _ => (V2 0 0, 0%Q)
  end.
Definition ex_rank (s : triangulation) (r : nat) : outcome (rank_state vec2 wrap2) :=
  initial vec2 wrap2 (insert2 ex_pop (box_remap2 ex_box)) s (box_outer2 ex_box) (map snd (ex_particles r)).
Definition ex_start : outcome (list (rank_state vec2 wrap2)) :=
  match all_encompassing_2d with
  | Some s => map_outcome (ex_rank s) [0; 1]
  | None => Panic InsertFailed
  end.
Definition ex_end (start : outcome (list (rank_state vec2 wrap2))) : option (outcome (list (rank_state vec2 wrap2))) :=
  match start with
  | Done w => run2 2 ex_cfg 20 40 ex_pop ex_box ex_particles (box_remap2 ex_box) ex_circumcircle 12 4 20 w
  | Panic _ => None
  end.
Example C60_example_distributed : distributed2 2 ex_box ex_particles.
Proof.
  constructor.
  - split; reflexivity.
  - intros [|[|r]]; cbn; repeat constructor.
  - intros [|[|r]]; cbn; split; intro H; try lia; try discriminate. contradiction.
  - intros [|[|r]]; cbn; repeat (constructor; [cbn; lia|]); constructor.
Qed.
Example C60_example_images : all_images2 ex_box ex_particles ex_all.
Proof.
  apply (all_images_list 2 ex_box ex_particles C60_example_distributed). intro p. unfold ex_all.
  assert (E : flat_map (fun r => flat_map (fun x : nat * vec2 => map snd (images2 ex_box (snd x))) (ex_particles r)) (seq 0 2) =
              flat_map (fun x : nat * vec2 => map snd (images2 ex_box (snd x))) (ex_particles 0 ++ ex_particles 1)) by reflexivity.
  rewrite E. clear E. rewrite !in_flat_map. split.
  - intros [k [Hk H]]. apply in_map_iff in H. destruct H as [x [<- Hx]]. exists x. split; [exact Hx|]. apply nth_In.
    apply in_seq in Hk. cbn. lia.
  - intros [x [Hx H]]. destruct (In_nth _ _ (V2 0 0) H) as [k [Hk E]]. exists k. split; [apply in_seq; cbn in Hk; lia|].
    apply in_map_iff. exists x. auto.
Qed.
Lemma ex_radius d : (0 <= d)%Q -> (d <= ((Z.sqrt (Qfloor d) + 1 # 1) * search_safety_factor) * ((Z.sqrt (Qfloor d) + 1 # 1) * search_safety_factor))%Q.
Proof.
  intro H. pose proof (Qlt_floor d) as A. assert (F0 : (0 <= Qfloor d)%Z) by (change 0%Z with (Qfloor 0); now apply Qfloor_resp_le).
  pose proof (Z.sqrt_spec (Qfloor d) F0) as [_ B]. set (z := Z.sqrt (Qfloor d)) in *. assert (Z0 : (0 <= z)%Z) by apply Z.sqrt_nonneg.
  assert (C : (inject_Z (Qfloor d + 1) <= inject_Z (Z.succ z * Z.succ z))%Q) by (rewrite <- Zle_Qle; lia).
  rewrite inject_Z_mult in C. unfold Z.succ in C. change (z + 1 # 1) with (inject_Z (z + 1)). assert (P : (0 <= inject_Z (z + 1))%Q) by (change 0%Q with (inject_Z 0); rewrite <- Zle_Qle; lia).
  set (q := inject_Z (z + 1)) in *. unfold search_safety_factor. nra.
Qed.
Example C60_example_circles : covers_circles2 to_point2 ex_circumcircle.
Proof.
  apply C60_exact_circles. intros [ax ay] [bx b_y] [cx cy] center radius NZ E. unfold ex_circumcircle in E.
  unfold area2, circumscribed2, dist2_2, to_point2 in *. cbn [Geometry_Model.t2p1 Geometry_Model.t2p2 Geometry_Model.t2p3 Geometry_Model.x2 Geometry_Model.y2 x2 y2] in *.
  assert (D : ~ (2 * ((bx - ax) * (cy - ay) - (b_y - ay) * (cx - ax)) == 0)%Q) by (intro Z; apply NZ; lra).
  set (d := (2 * ((bx - ax) * (cy - ay) - (b_y - ay) * (cx - ax)))%Q) in *.
  set (nx := ((cy - ay) * ((bx - ax) * (bx - ax) + (b_y - ay) * (b_y - ay)) - (b_y - ay) * ((cx - ax) * (cx - ax) + (cy - ay) * (cy - ay)))%Q) in *.
  set (ny := ((bx - ax) * ((cx - ax) * (cx - ax) + (cy - ay) * (cy - ay)) - (cx - ax) * ((bx - ax) * (bx - ax) + (b_y - ay) * (b_y - ay)))%Q) in *.
  apply pair_equal_spec in E. destruct E as [<- <-]. cbn [x2 y2].
  pose proof (Qred_correct (ax + nx / d)) as R1. pose proof (Qred_correct (ay + ny / d)) as R2.
  set (rx := Qred (ax + nx / d)) in *. set (ry := Qred (ay + ny / d)) in *. clearbody rx ry. rewrite R1, R2. clear R1 R2.
  split; [|split].
  - split; subst nx ny d; field; exact NZ.
  - set (z := Z.sqrt _). assert (0 <= z)%Z by apply Z.sqrt_nonneg. unfold Qlt. cbn. lia.
  - apply (Qle_trans _ (nx / d * (nx / d) + ny / d * (ny / d))); [apply Qle_lteq; right; ring|]. apply ex_radius. nra.
Qed.
Example C60_example_starts : forall s0 w, all_encompassing_2d = Some s0 -> map_outcome (ex_rank s0) [0; 1] = Done w ->
  starts_from2 2 ex_pop ex_particles (box_remap2 ex_box) (box_outer2 ex_box) w.
Proof.
  intros s0 w E0 H. cbn [map_outcome] in H. destruct (ex_rank s0 0) as [sa|] eqn:Ea; cbn [andthen] in H; [|discriminate].
  destruct (ex_rank s0 1) as [sb|] eqn:Eb; cbn [andthen] in H; [|discriminate]. injection H as <-.
  split; [reflexivity|]. intros r s Hr. exists s0, (map snd (ex_particles r)).
  split; [exact E0|]. split; [apply Permutation_refl|]. unfold ex_rank in *.
  destruct r as [|[|r]]; cbn [nth_error] in Hr; [| |destruct r; discriminate]; injection Hr as <-; assumption.
Qed.
Example C60_example_run :
  match ex_end ex_start with
  | Some (Done w) => map (fun s => length (filter is_inner (kinds vec2 wrap2 s))) w = [3; 2] /\ map (fun s => length (haloes vec2 wrap2 s)) w = [10; 9]
  | _ => False
  end.
Proof. vm_compute. split; reflexivity. Qed.
Example C60_example_whole : match whole2 ex_box ex_pop ex_all with Some s => length (tetras s) = 91 | None => False end.
Proof. vm_compute. reflexivity. Qed.
