(** The results about the halo iteration in two and three dimensions. *)
From Coq Require Import List Arith QArith Lia Permutation.
From Verif Require Geometry_Model.
From Verif Require Import Box_Model Box_Spec Tree_Model Delaunay_Model DelaunayInsert_Proofs Delaunay2Insert_Proofs Delaunay3Insert_Proofs
  Halo_Model Halo_Spec Halo_Proofs HaloGeo_Model HaloGeo_Spec HaloGeo_Proofs.
Import ListNotations.
Local Open Scope nat_scope.

Section Three.
  Variables (ranks : nat) (cfg : config) (build_fuel search_fuel : nat) (pop : nat -> list nat -> nat).
  Variables (box : extent3) (particles : nat -> list (nat * vec3)) (remap : vec3 -> Geometry_Model.point3).
  Variables (circumcircle : list vec3 -> vec3 * Q) (characteristic_length : Q) (chunk_size : nat).
  Hypothesis D : distributed3 ranks box particles.
  Hypothesis F : max_depth cfg < build_fuel.

  Lemma starts3_started w : starts3 ranks pop particles remap w ->
    started vec3 wrap3 (insert3 pop remap) particles good3 w.
  Proof.
    intros [L H]. split.
    - intros q Hq. rewrite L. now apply (di3_ranks _ _ _ D).
    - intros r s Hr. destruct (H r s Hr) as [start [outer [local [E1 [E2 [E3 E4]]]]]].
      destruct inv3_start as [s0 [E0 [I [LO [_ P]]]]]. rewrite E1 in E0. injection E0 as <-.
      exists start, outer, local. split; [now split|]. split; [lia|]. split; [|exact E4].
      intros x pos Hx. apply (Permutation_in _ (Permutation_sym E3)). apply (in_map snd) in Hx. exact Hx.
  Qed.

  Theorem complete3 fuel w w' r s : starts3 ranks pop particles remap w ->
    run3 ranks cfg build_fuel search_fuel pop box particles remap circumcircle characteristic_length chunk_size fuel w = Some (Done w') ->
    nth_error w' r = Some s -> complete vec3 wrap3 is_periodic3 (images3 box) closer3 circumcircle particles r s.
  Proof.
    intros S H Hr. destruct D as [d1 d2 d3 d4].
    refine (run_complete vec3 wrap3 wrap3_eqb wrap3_eqb_spec is_periodic3 one_unwrapped3 (images3 box) closer3
      (search_tree3 cfg build_fuel search_fuel box particles) (owns_part3 ranks box particles) circumcircle (insert3 pop remap)
      characteristic_length chunk_size particles _ _ closer3_mono good3 good3_ids good3_lt good3_corner (insert3_good pop remap) _
      fuel w w' r s (starts3_started w S) H Hr).
    - exact (exact3 ranks cfg build_fuel search_fuel pop box particles remap d1 F d2).
    - exact (extents_sound3 ranks cfg build_fuel pop box particles remap d1 F d3).
    - exact (one_image3 box particles d4).
  Qed.
  Theorem sound3 w w' r s : starts3 ranks pop particles remap w ->
    steps (round3 ranks cfg build_fuel search_fuel pop characteristic_length chunk_size box particles remap circumcircle) w w' ->
    nth_error w' r = Some s ->
    NoDup (map fst (haloes vec3 wrap3 s)) /\
    forall k i, In (k, i) (haloes vec3 wrap3 s) -> exists q x wr p, k = halo_key wrap3 is_periodic3 r q x wr /\
      foreign wrap3 is_periodic3 r q wr /\ image_of vec3 wrap3 (images3 box) particles q x wr p /\
      nth_error (points vec3 wrap3 s) i = Some p.
  Proof.
    intros S H Hr. destruct D as [d1 d2 d3 d4].
    refine (haloes_sound vec3 wrap3 wrap3_eqb wrap3_eqb_spec is_periodic3 one_unwrapped3 (images3 box) closer3
      (search_tree3 cfg build_fuel search_fuel box particles) (owns_part3 ranks box particles) circumcircle (insert3 pop remap)
      characteristic_length chunk_size particles _ _ closer3_mono good3 good3_ids good3_lt good3_corner (insert3_good pop remap)
      w w' r s (starts3_started w S) H Hr).
    - exact (exact3 ranks cfg build_fuel search_fuel pop box particles remap d1 F d2).
    - exact (extents_sound3 ranks cfg build_fuel pop box particles remap d1 F d3).
  Qed.
  Theorem once3 w w' ds r s1 recv : starts3 ranks pop particles remap w ->
    steps (round3 ranks cfg build_fuel search_fuel pop characteristic_length chunk_size box particles remap circumcircle) w w' ->
    deliveries3 ranks cfg build_fuel search_fuel characteristic_length chunk_size box particles circumcircle w' = Done ds ->
    nth_error ds r = Some (s1, recv) ->
    (forall q res, nth_error recv q = Some res -> NoDup (map (fun x => (r_id vec3 wrap3 x, r_wrap vec3 wrap3 x)) res)) /\
    (forall q res x, nth_error recv q = Some res -> In x res ->
       ~ In (halo_key wrap3 is_periodic3 r q (r_id vec3 wrap3 x) (r_wrap vec3 wrap3 x)) (map fst (haloes vec3 wrap3 s1))) /\
    forall why, import vec3 wrap3 wrap3_eqb is_periodic3 (insert3 pop remap) r recv s1 = Panic why -> why = InsertFailed.
  Proof.
    intros S H Hd Hr. destruct D as [d1 d2 d3 d4].
    refine (received_once vec3 wrap3 wrap3_eqb wrap3_eqb_spec is_periodic3 one_unwrapped3 (images3 box) closer3
      (search_tree3 cfg build_fuel search_fuel box particles) (owns_part3 ranks box particles) circumcircle (insert3 pop remap)
      characteristic_length chunk_size particles _ _ closer3_mono good3 good3_ids good3_lt good3_corner (insert3_good pop remap)
      w w' ds r s1 recv (starts3_started w S) H Hd Hr).
    - exact (exact3 ranks cfg build_fuel search_fuel pop box particles remap d1 F d2).
    - exact (extents_sound3 ranks cfg build_fuel pop box particles remap d1 F d3).
  Qed.
  Theorem panics3 fuel w why : starts3 ranks pop particles remap w ->
    run3 ranks cfg build_fuel search_fuel pop box particles remap circumcircle characteristic_length chunk_size fuel w = Some (Panic why) ->
    why = SearchFailed \/ why = TwoImages \/ why = InsertFailed.
  Proof.
    intros S H. destruct D as [d1 d2 d3 d4].
    refine (run_panic vec3 wrap3 wrap3_eqb wrap3_eqb_spec is_periodic3 one_unwrapped3 (images3 box) closer3
      (search_tree3 cfg build_fuel search_fuel box particles) (owns_part3 ranks box particles) circumcircle (insert3 pop remap)
      characteristic_length chunk_size particles _ _ closer3_mono good3 good3_ids good3_lt good3_corner (insert3_good pop remap)
      fuel w why (starts3_started w S) H).
    - exact (exact3 ranks cfg build_fuel search_fuel pop box particles remap d1 F d2).
    - exact (extents_sound3 ranks cfg build_fuel pop box particles remap d1 F d3).
  Qed.
End Three.

Section Two.
  Variables (ranks : nat) (cfg : config) (build_fuel search_fuel : nat) (pop : nat -> list nat -> nat).
  Variables (box : extent2) (particles : nat -> list (nat * vec2)) (remap : vec2 -> Geometry_Model.point2).
  Variables (circumcircle : list vec2 -> vec2 * Q) (characteristic_length : Q) (chunk_size : nat).
  Hypothesis D : distributed2 ranks box particles.
  Hypothesis F : max_depth cfg < build_fuel.

  Lemma starts2_started w : starts2 ranks pop particles remap w ->
    started vec2 wrap2 (insert2 pop remap) particles good2 w.
  Proof.
    intros [L H]. split.
    - intros q Hq. rewrite L. now apply (di2_ranks _ _ _ D).
    - intros r s Hr. destruct (H r s Hr) as [start [outer [local [E1 [E2 [E3 E4]]]]]].
      destruct inv2_start as [s0 [E0 [I [LO [_ P]]]]]. rewrite E1 in E0. injection E0 as <-.
      exists start, outer, local. split; [now split|]. split; [lia|]. split; [|exact E4].
      intros x pos Hx. apply (Permutation_in _ (Permutation_sym E3)). apply (in_map snd) in Hx. exact Hx.
  Qed.

  Theorem complete2 fuel w w' r s : starts2 ranks pop particles remap w ->
    run2 ranks cfg build_fuel search_fuel pop box particles remap circumcircle characteristic_length chunk_size fuel w = Some (Done w') ->
    nth_error w' r = Some s -> complete vec2 wrap2 is_periodic2 (images2 box) closer2 circumcircle particles r s.
  Proof.
    intros S H Hr. destruct D as [d1 d2 d3 d4].
    refine (run_complete vec2 wrap2 wrap2_eqb wrap2_eqb_spec is_periodic2 one_unwrapped2 (images2 box) closer2
      (search_tree2 cfg build_fuel search_fuel box particles) (owns_part2 ranks box particles) circumcircle (insert2 pop remap)
      characteristic_length chunk_size particles _ _ closer2_mono good2 good2_ids good2_lt good2_corner (insert2_good pop remap) _
      fuel w w' r s (starts2_started w S) H Hr).
    - exact (exact2 ranks cfg build_fuel search_fuel pop box particles remap d1 F d2).
    - exact (extents_sound2 ranks cfg build_fuel pop box particles remap d1 F d3).
    - exact (one_image2 box particles d4).
  Qed.
  Theorem sound2 w w' r s : starts2 ranks pop particles remap w ->
    steps (round2 ranks cfg build_fuel search_fuel pop characteristic_length chunk_size box particles remap circumcircle) w w' ->
    nth_error w' r = Some s ->
    NoDup (map fst (haloes vec2 wrap2 s)) /\
    forall k i, In (k, i) (haloes vec2 wrap2 s) -> exists q x wr p, k = halo_key wrap2 is_periodic2 r q x wr /\
      foreign wrap2 is_periodic2 r q wr /\ image_of vec2 wrap2 (images2 box) particles q x wr p /\
      nth_error (points vec2 wrap2 s) i = Some p.
  Proof.
    intros S H Hr. destruct D as [d1 d2 d3 d4].
    refine (haloes_sound vec2 wrap2 wrap2_eqb wrap2_eqb_spec is_periodic2 one_unwrapped2 (images2 box) closer2
      (search_tree2 cfg build_fuel search_fuel box particles) (owns_part2 ranks box particles) circumcircle (insert2 pop remap)
      characteristic_length chunk_size particles _ _ closer2_mono good2 good2_ids good2_lt good2_corner (insert2_good pop remap)
      w w' r s (starts2_started w S) H Hr).
    - exact (exact2 ranks cfg build_fuel search_fuel pop box particles remap d1 F d2).
    - exact (extents_sound2 ranks cfg build_fuel pop box particles remap d1 F d3).
  Qed.
  Theorem once2 w w' ds r s1 recv : starts2 ranks pop particles remap w ->
    steps (round2 ranks cfg build_fuel search_fuel pop characteristic_length chunk_size box particles remap circumcircle) w w' ->
    deliveries2 ranks cfg build_fuel search_fuel characteristic_length chunk_size box particles circumcircle w' = Done ds ->
    nth_error ds r = Some (s1, recv) ->
    (forall q res, nth_error recv q = Some res -> NoDup (map (fun x => (r_id vec2 wrap2 x, r_wrap vec2 wrap2 x)) res)) /\
    (forall q res x, nth_error recv q = Some res -> In x res ->
       ~ In (halo_key wrap2 is_periodic2 r q (r_id vec2 wrap2 x) (r_wrap vec2 wrap2 x)) (map fst (haloes vec2 wrap2 s1))) /\
    forall why, import vec2 wrap2 wrap2_eqb is_periodic2 (insert2 pop remap) r recv s1 = Panic why -> why = InsertFailed.
  Proof.
    intros S H Hd Hr. destruct D as [d1 d2 d3 d4].
    refine (received_once vec2 wrap2 wrap2_eqb wrap2_eqb_spec is_periodic2 one_unwrapped2 (images2 box) closer2
      (search_tree2 cfg build_fuel search_fuel box particles) (owns_part2 ranks box particles) circumcircle (insert2 pop remap)
      characteristic_length chunk_size particles _ _ closer2_mono good2 good2_ids good2_lt good2_corner (insert2_good pop remap)
      w w' ds r s1 recv (starts2_started w S) H Hd Hr).
    - exact (exact2 ranks cfg build_fuel search_fuel pop box particles remap d1 F d2).
    - exact (extents_sound2 ranks cfg build_fuel pop box particles remap d1 F d3).
  Qed.
  Theorem panics2 fuel w why : starts2 ranks pop particles remap w ->
    run2 ranks cfg build_fuel search_fuel pop box particles remap circumcircle characteristic_length chunk_size fuel w = Some (Panic why) ->
    why = SearchFailed \/ why = TwoImages \/ why = InsertFailed.
  Proof.
    intros S H. destruct D as [d1 d2 d3 d4].
    refine (run_panic vec2 wrap2 wrap2_eqb wrap2_eqb_spec is_periodic2 one_unwrapped2 (images2 box) closer2
      (search_tree2 cfg build_fuel search_fuel box particles) (owns_part2 ranks box particles) circumcircle (insert2 pop remap)
      characteristic_length chunk_size particles _ _ closer2_mono good2 good2_ids good2_lt good2_corner (insert2_good pop remap)
      fuel w why (starts2_started w S) H).
    - exact (exact2 ranks cfg build_fuel search_fuel pop box particles remap d1 F d2).
    - exact (extents_sound2 ranks cfg build_fuel pop box particles remap d1 F d3).
  Qed.
End Two.
