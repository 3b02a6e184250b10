(** Property C26: the periodic box. *)
From Coq Require Import List QArith ZArith.
Import ListNotations.
From Verif Require Import Box_Model Box_Spec Box_Proofs.
Local Open Scope Q_scope.

(** C26. Wrapping lands in the half-open box, moves the point by whole box lengths,
    and leaves points of the box where they are (so wrapping twice is wrapping
    once). *)
Theorem C26_wrap_3d : forall b p, proper3 b ->
  in_box3 b (periodic_wrap3 b p) /\ same_class3 b (periodic_wrap3 b p) p
  /\ (in_box3 b p -> eq3 (periodic_wrap3 b p) p)
  /\ eq3 (periodic_wrap3 b (periodic_wrap3 b p)) (periodic_wrap3 b p).
Proof. exact wrap3_all. Qed.
Print Assumptions C26_wrap_3d.
Theorem C26_wrap_2d : forall b p, proper2 b ->
  in_box2 b (periodic_wrap2 b p) /\ same_class2 b (periodic_wrap2 b p) p
  /\ (in_box2 b p -> eq2 (periodic_wrap2 b p) p)
  /\ eq2 (periodic_wrap2 b (periodic_wrap2 b p)) (periodic_wrap2 b p).
Proof. exact wrap2_all. Qed.
Print Assumptions C26_wrap_2d.

(** The distance of two points of the box is symmetric, is the distance to some
    image of the first point, and is not larger than the distance to any image. *)
Theorem C26_distance_3d : forall b p q, proper3 b -> in_box3 b p -> in_box3 b q ->
  length_sq3 (periodic_distance_vec3 b p q) == length_sq3 (periodic_distance_vec3 b q p)
  /\ (exists kx ky kz, length_sq3 (periodic_distance_vec3 b p q) == dist_sq3 (shift3 b kx ky kz p) q)
  /\ (forall kx ky kz, length_sq3 (periodic_distance_vec3 b p q) <= dist_sq3 (shift3 b kx ky kz p) q).
Proof. exact distance3_all. Qed.
Print Assumptions C26_distance_3d.
Theorem C26_distance_2d : forall b p q, proper2 b -> in_box2 b p -> in_box2 b q ->
  length_sq2 (periodic_distance_vec2 b p q) == length_sq2 (periodic_distance_vec2 b q p)
  /\ (exists kx ky, length_sq2 (periodic_distance_vec2 b p q) == dist_sq2 (shift2 b kx ky p) q)
  /\ (forall kx ky, length_sq2 (periodic_distance_vec2 b p q) <= dist_sq2 (shift2 b kx ky p) q).
Proof. exact distance2_all. Qed.
Print Assumptions C26_distance_2d.

(** The listed images are exactly the shifts by -1, 0 and 1 box lengths per axis,
    each listed once. *)
Theorem C26_images_3d : forall b p,
  NoDup (map (fun '(wx, wy, wz, _) => (wx, wy, wz)) (images3 b p))
  /\ forall v, (exists wx wy wz u, In (wx, wy, wz, u) (images3 b p) /\ eq3 u v)
     <-> exists kx ky kz, unit_shift kx /\ unit_shift ky /\ unit_shift kz /\ eq3 v (shift3 b kx ky kz p).
Proof. exact (fun b p => conj (images3_nodup b p) (images3_exact b p)). Qed.
Print Assumptions C26_images_3d.
Theorem C26_images_2d : forall b p,
  NoDup (map (fun '(wx, wy, _) => (wx, wy)) (images2 b p))
  /\ forall v, (exists wx wy u, In (wx, wy, u) (images2 b p) /\ eq2 u v)
     <-> exists kx ky, unit_shift kx /\ unit_shift ky /\ eq2 v (shift2 b kx ky p).
Proof. exact (fun b p => conj (images2_nodup b p) (images2_exact b p)). Qed.
Print Assumptions C26_images_2d.

Definition ex_box : extent3 := E3 (V3 (-1) (-1) (-1)) (V3 1 2 3).
Example C26_example :
  proper3 ex_box
  /\ eq3 (periodic_wrap3 ex_box (V3 (-15 # 10) (-5 # 10) (70 # 10))) (V3 (5 # 10) (-5 # 10) (-10 # 10))
  /\ length_sq3 (periodic_distance_vec3 ex_box (V3 (-9 # 10) 0 0) (V3 (9 # 10) 0 0)) == 4 # 100
  /\ length (images3 ex_box (V3 0 0 0)) = 27%nat /\ length (images2 (E2 (V2 0 0) (V2 1 1)) (V2 0 0)) = 9%nat.
Proof. repeat split; vm_compute; reflexivity. Qed.
