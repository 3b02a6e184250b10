(** Properties C38 and C39: the import of halo particles. *)
From Coq Require Import List Arith ZArith QArith Qround Lia Permutation.
From Verif Require Geometry_Model.
From Verif Require Import Box_Model Box_Spec Tree_Model Delaunay_Model Halo_Model Halo_Spec HaloGeo_Model HaloGeo_Spec HaloFinal_Proofs.
Import ListNotations.
Local Open Scope nat_scope.

(** C38. When the iteration of all ranks stops, every image of a particle that is closer to the centre of
    the circumsphere of a tetra with a local corner than the radius (times the safety factor) is a point
    of the triangulation: as a halo with its position if it is foreign, as a local point otherwise. For all
    numbers of ranks, particles, remappings, orders of the point location, functions computing the centre and
    radius of a circumsphere, characteristic lengths and chunk sizes. *)
Theorem C38_complete_2d : forall ranks cfg build_fuel search_fuel pop box particles remap circumcircle characteristic_length chunk_size,
  distributed2 ranks box particles -> max_depth cfg < build_fuel ->
  forall fuel w w' r s, starts2 ranks pop particles remap w ->
  run2 ranks cfg build_fuel search_fuel pop box particles remap circumcircle characteristic_length chunk_size fuel w = Some (Done w') ->
  nth_error w' r = Some s -> complete vec2 wrap2 is_periodic2 (images2 box) closer2 circumcircle particles r s.
Proof. exact complete2. Qed.
Print Assumptions C38_complete_2d.
Theorem C38_complete_3d : forall ranks cfg build_fuel search_fuel pop box particles remap circumcircle characteristic_length chunk_size,
  distributed3 ranks box particles -> max_depth cfg < build_fuel ->
  forall fuel w w' r s, starts3 ranks pop particles remap w ->
  run3 ranks cfg build_fuel search_fuel pop box particles remap circumcircle characteristic_length chunk_size fuel w = Some (Done w') ->
  nth_error w' r = Some s -> complete vec3 wrap3 is_periodic3 (images3 box) closer3 circumcircle particles r s.
Proof. exact complete3. Qed.
Print Assumptions C38_complete_3d.

(** Nothing else is imported: at any time every halo is an image of a foreign particle, at its position. *)
Theorem C38_sound_2d : forall ranks cfg build_fuel search_fuel pop box particles remap circumcircle characteristic_length chunk_size,
  distributed2 ranks box particles -> max_depth cfg < build_fuel ->
  forall w w' r s, starts2 ranks pop particles remap w ->
  steps (round2 ranks cfg build_fuel search_fuel pop characteristic_length chunk_size box particles remap circumcircle) w w' ->
  nth_error w' r = Some s ->
  NoDup (map fst (haloes vec2 wrap2 s)) /\
  forall k i, In (k, i) (haloes vec2 wrap2 s) -> exists q x wr p, k = halo_key wrap2 is_periodic2 r q x wr /\
    foreign wrap2 is_periodic2 r q wr /\ image_of vec2 wrap2 (images2 box) particles q x wr p /\
    nth_error (points vec2 wrap2 s) i = Some p.
Proof. exact sound2. Qed.
Print Assumptions C38_sound_2d.
Theorem C38_sound_3d : forall ranks cfg build_fuel search_fuel pop box particles remap circumcircle characteristic_length chunk_size,
  distributed3 ranks box particles -> max_depth cfg < build_fuel ->
  forall w w' r s, starts3 ranks pop particles remap w ->
  steps (round3 ranks cfg build_fuel search_fuel pop characteristic_length chunk_size box particles remap circumcircle) w w' ->
  nth_error w' r = Some s ->
  NoDup (map fst (haloes vec3 wrap3 s)) /\
  forall k i, In (k, i) (haloes vec3 wrap3 s) -> exists q x wr p, k = halo_key wrap3 is_periodic3 r q x wr /\
    foreign wrap3 is_periodic3 r q wr /\ image_of vec3 wrap3 (images3 box) particles q x wr p /\
    nth_error (points vec3 wrap3 s) i = Some p.
Proof. exact sound3. Qed.
Print Assumptions C38_sound_3d.

(** C39. In every round, what a rank receives contains no image twice and no image that is already one of
    its haloes, and the import can only fail inside of the insertion of a point: the check for duplicates
    never fires. *)
Theorem C39_received_once_2d : forall ranks cfg build_fuel search_fuel pop box particles remap circumcircle characteristic_length chunk_size,
  distributed2 ranks box particles -> max_depth cfg < build_fuel ->
  forall w w' ds r s1 recv, starts2 ranks pop particles remap w ->
  steps (round2 ranks cfg build_fuel search_fuel pop characteristic_length chunk_size box particles remap circumcircle) w w' ->
  deliveries2 ranks cfg build_fuel search_fuel characteristic_length chunk_size box particles circumcircle w' = Done ds ->
  nth_error ds r = Some (s1, recv) ->
  (forall q res, nth_error recv q = Some res -> NoDup (map (fun x => (r_id vec2 wrap2 x, r_wrap vec2 wrap2 x)) res)) /\
  (forall q res x, nth_error recv q = Some res -> In x res ->
     ~ In (halo_key wrap2 is_periodic2 r q (r_id vec2 wrap2 x) (r_wrap vec2 wrap2 x)) (map fst (haloes vec2 wrap2 s1))) /\
  forall why, import vec2 wrap2 wrap2_eqb is_periodic2 (insert2 pop remap) r recv s1 = Panic why -> why = InsertFailed.
Proof. exact once2. Qed.
Print Assumptions C39_received_once_2d.
Theorem C39_received_once_3d : forall ranks cfg build_fuel search_fuel pop box particles remap circumcircle characteristic_length chunk_size,
  distributed3 ranks box particles -> max_depth cfg < build_fuel ->
  forall w w' ds r s1 recv, starts3 ranks pop particles remap w ->
  steps (round3 ranks cfg build_fuel search_fuel pop characteristic_length chunk_size box particles remap circumcircle) w w' ->
  deliveries3 ranks cfg build_fuel search_fuel characteristic_length chunk_size box particles circumcircle w' = Done ds ->
  nth_error ds r = Some (s1, recv) ->
  (forall q res, nth_error recv q = Some res -> NoDup (map (fun x => (r_id vec3 wrap3 x, r_wrap vec3 wrap3 x)) res)) /\
  (forall q res x, nth_error recv q = Some res -> In x res ->
     ~ In (halo_key wrap3 is_periodic3 r q (r_id vec3 wrap3 x) (r_wrap vec3 wrap3 x)) (map fst (haloes vec3 wrap3 s1))) /\
  forall why, import vec3 wrap3 wrap3_eqb is_periodic3 (insert3 pop remap) r recv s1 = Panic why -> why = InsertFailed.
Proof. exact once3. Qed.
Print Assumptions C39_received_once_3d.

(** The iteration ends early only because the model of the tree search runs out of fuel, because two images of
    one particle are in a search sphere, or because a point cannot be inserted into the triangulation. *)
Theorem C39_panics_2d : forall ranks cfg build_fuel search_fuel pop box particles remap circumcircle characteristic_length chunk_size,
  distributed2 ranks box particles -> max_depth cfg < build_fuel ->
  forall fuel w why, starts2 ranks pop particles remap w ->
  run2 ranks cfg build_fuel search_fuel pop box particles remap circumcircle characteristic_length chunk_size fuel w = Some (Panic why) ->
  why = SearchFailed \/ why = TwoImages \/ why = InsertFailed.
Proof. exact panics2. Qed.
Print Assumptions C39_panics_2d.
Theorem C39_panics_3d : forall ranks cfg build_fuel search_fuel pop box particles remap circumcircle characteristic_length chunk_size,
  distributed3 ranks box particles -> max_depth cfg < build_fuel ->
  forall fuel w why, starts3 ranks pop particles remap w ->
  run3 ranks cfg build_fuel search_fuel pop box particles remap circumcircle characteristic_length chunk_size fuel w = Some (Panic why) ->
  why = SearchFailed \/ why = TwoImages \/ why = InsertFailed.
Proof. exact panics3. Qed.
Print Assumptions C39_panics_3d.

Lemma map_outcome_two {A B} (f : A -> outcome B) a b w : map_outcome f [a; b] = Done w ->
  exists x y, f a = Done x /\ f b = Done y /\ w = [x; y].
Proof.
  cbn [map_outcome]. destruct (f a) as [x|]; cbn [andthen]; [|discriminate].
  destruct (f b) as [y|]; cbn [andthen]; [|discriminate]. intro H. injection H as <-. eauto.
Qed.

(** Two ranks with eight particles each in the plane: the iteration stops, with haloes across the border of
    the ranks and across the border of the box. *)
Definition ex2_box : extent2 := E2 (V2 0 0) (V2 1 1).
Definition ex2_p (a b : nat) : vec2 := V2 (Z.of_nat a # 100) (Z.of_nat b # 100).
Definition ex2_particles (r : nat) : list (nat * vec2) :=
  match r with
  | 0 => [(0, ex2_p 13 11); (1, ex2_p 14 38); (2, ex2_p 11 61); (3, ex2_p 15 88);
          (4, ex2_p 37 13); (5, ex2_p 39 36); (6, ex2_p 36 64); (7, ex2_p 38 87)]
  | 1 => [(0, ex2_p 63 12); (1, ex2_p 61 37); (2, ex2_p 64 62); (3, ex2_p 62 89);
          (4, ex2_p 87 14); (5, ex2_p 88 35); (6, ex2_p 86 63); (7, ex2_p 89 86)]
  | _ => []
  end.
Definition ex2_remap (v : vec2) : Geometry_Model.point2 := Geometry_Model.P2 (x2 v) (y2 v).
Definition ex2_outer : list vec2 := [V2 (-10) (-10); V2 30 (-10); V2 (-10) 30].
Definition ex_cfg : config := {| max_depth := 10; max_per_leaf := 4 |}.
Definition ex_pop (n : nat) (l : list nat) : nat := hd 0 l.
(* the centre of the circumcircle and an upper bound of the radius *)
Definition ex2_circumcircle (l : list vec2) : vec2 * Q :=
  match l with
  | [a; b; c] =>
    let bx := (x2 b - x2 a)%Q in let b_y := (y2 b - y2 a)%Q in
    let cx := (x2 c - x2 a)%Q in let cy := (y2 c - y2 a)%Q in
    let d := (2 * (bx * cy - b_y * cx))%Q in
    let ux := ((cy * (bx * bx + b_y * b_y) - b_y * (cx * cx + cy * cy)) / d)%Q in
    let uy := ((bx * (cx * cx + cy * cy) - cx * (bx * bx + b_y * b_y)) / d)%Q in
    (V2 (Qred (x2 a + ux)) (Qred (y2 a + uy)),
     (Z.sqrt (Qfloor ((ux * ux + uy * uy) * 1000000)) + 1 # 1000)%Q)
  | _ => (V2 0 0, 0%Q)
  end.
Definition ex2_rank (s : triangulation) (r : nat) : outcome (rank_state vec2 wrap2) :=
  initial vec2 wrap2 (insert2 ex_pop ex2_remap) s ex2_outer (map snd (ex2_particles r)).
Definition ex2_start : outcome (list (rank_state vec2 wrap2)) :=
  match all_encompassing_2d with
  | Some s => map_outcome (ex2_rank s) [0; 1]
  | None => Panic InsertFailed
  end.
Definition ex2_end (start : outcome (list (rank_state vec2 wrap2))) (fuel : nat)
    : option (outcome (list (rank_state vec2 wrap2))) :=
  match start with
  | Done w => run2 2 ex_cfg 20 1000 ex_pop ex2_box ex2_particles ex2_remap ex2_circumcircle (3 # 10) 100 fuel w
  | Panic _ => None
  end.
Example C38_example_distributed_2d : distributed2 2 ex2_box ex2_particles.
Proof.
  constructor.
  - split; reflexivity.
  - intros [|[|r]]; cbn; repeat constructor.
  - intros [|[|r]]; cbn; split; intro H; try lia; try discriminate. contradiction.
  - intros [|[|r]]; cbn; repeat (constructor; [cbn; lia|]); constructor.
Qed.
Example C38_example_starts_2d : forall s0 w, all_encompassing_2d = Some s0 -> map_outcome (ex2_rank s0) [0; 1] = Done w ->
  starts2 2 ex_pop ex2_particles ex2_remap w.
Proof.
  intros s0 w E0 H.
  destruct (map_outcome_two _ _ _ _ H) as [sa [sb [Ea [Eb ->]]]]. clear H.
  split; [reflexivity|]. intros r s Hr. exists s0, ex2_outer, (map snd (ex2_particles r)).
  split; [exact E0|]. split; [reflexivity|]. split; [apply Permutation_refl|]. unfold ex2_rank in *.
  destruct r as [|[|r]]; cbn [nth_error] in Hr; [| |destruct r; discriminate]; injection Hr as <-; assumption.
Qed.
Example C38_example_run_2d :
  match ex2_end ex2_start 20 with
  | Some (Done w) => map (fun s => length (haloes vec2 wrap2 s)) w = [14; 15] /\
                     existsb (fun h => match fst h with LocalPeriodic _ _ _ => true | _ => false end)
                       (flat_map (haloes vec2 wrap2) w) = true
  | _ => False
  end.
Proof. vm_compute. split; reflexivity. Qed.

(** Two ranks with three particles each in space. *)
Definition ex3_box : extent3 := E3 (V3 0 0 0) (V3 1 1 1).
Definition ex3_p (a b c : nat) : vec3 := V3 (Z.of_nat a # 100) (Z.of_nat b # 100) (Z.of_nat c # 100).
Definition ex3_particles (r : nat) : list (nat * vec3) :=
  match r with
  | 0 => [(0, ex3_p 13 31 22); (1, ex3_p 37 63 71); (2, ex3_p 26 81 34)]
  | 1 => [(0, ex3_p 63 22 43); (1, ex3_p 88 76 57); (2, ex3_p 71 54 87)]
  | _ => []
  end.
Definition ex3_remap (v : vec3) : Geometry_Model.point3 := Geometry_Model.P3 (x3 v) (y3 v) (z3 v).
Definition ex3_outer : list vec3 := [V3 (-10) (-11) (-12); V3 50 (-10) (-13); V3 (-14) 57 (-10); V3 (-9) (-10) 61].
(* a sphere of fixed radius around the last corner *)
Definition ex3_circumcircle (l : list vec3) : vec3 * Q := (last l (V3 0 0 0), 40 # 100).
Definition ex3_rank (s : triangulation) (r : nat) : outcome (rank_state vec3 wrap3) :=
  initial vec3 wrap3 (insert3 ex_pop ex3_remap) s ex3_outer (map snd (ex3_particles r)).
Definition ex3_start : outcome (list (rank_state vec3 wrap3)) :=
  match all_encompassing_3d with
  | Some s => map_outcome (ex3_rank s) [0; 1]
  | None => Panic InsertFailed
  end.
Definition ex3_end (start : outcome (list (rank_state vec3 wrap3))) (fuel : nat)
    : option (outcome (list (rank_state vec3 wrap3))) :=
  match start with
  | Done w => run3 2 ex_cfg 20 1000 ex_pop ex3_box ex3_particles ex3_remap ex3_circumcircle (3 # 10) 100 fuel w
  | Panic _ => None
  end.
Example C38_example_distributed_3d : distributed3 2 ex3_box ex3_particles.
Proof.
  constructor.
  - repeat split; reflexivity.
  - intros [|[|r]]; cbn; repeat constructor.
  - intros [|[|r]]; cbn; split; intro H; try lia; try discriminate. contradiction.
  - intros [|[|r]]; cbn; repeat (constructor; [cbn; lia|]); constructor.
Qed.
Example C38_example_starts_3d : forall s0 w, all_encompassing_3d = Some s0 -> map_outcome (ex3_rank s0) [0; 1] = Done w ->
  starts3 2 ex_pop ex3_particles ex3_remap w.
Proof.
  intros s0 w E0 H.
  destruct (map_outcome_two _ _ _ _ H) as [sa [sb [Ea [Eb ->]]]]. clear H.
  split; [reflexivity|]. intros r s Hr. exists s0, ex3_outer, (map snd (ex3_particles r)).
  split; [exact E0|]. split; [reflexivity|]. split; [apply Permutation_refl|]. unfold ex3_rank in *.
  destruct r as [|[|r]]; cbn [nth_error] in Hr; [| |destruct r; discriminate]; injection Hr as <-; assumption.
Qed.
Example C38_example_run_3d :
  match ex3_end ex3_start 20 with
  | Some (Done w) => map (fun s => (length (points vec3 wrap3 s), length (haloes vec3 wrap3 s))) w = [(8, 1); (8, 1)]
  | _ => False
  end.
Proof. vm_compute. reflexivity. Qed.

(** A round in which something is delivered, for C39: the numbers of particles that each rank gets from each. *)
Definition ex2_round (start : outcome (list (rank_state vec2 wrap2))) : list (list nat) :=
  match start with
  | Done w =>
      match deliveries2 2 ex_cfg 20 1000 (3 # 10) 100 ex2_box ex2_particles ex2_circumcircle w with
      | Done ds => map (fun d => map (@length _) (snd d)) ds
      | Panic _ => []
      end
  | Panic _ => []
  end.
Example C39_example : ex2_round ex2_start = [[3; 5]; [5; 4]].
Proof. vm_compute. reflexivity. Qed.
