(** Proofs for [VoronoiGrid3_Model]: the points of a rank and their types. *)
From Coq Require Import List Arith QArith Lqa Lia Permutation Setoid Bool Reals.
From Verif Require Geometry_Model VoronoiGrid_Proofs.
From Verif Require Import Geometry_Spec Box_Model Box_Spec Tree_Model Circle2_Proofs Tiling2_Proofs Delaunay_Model Delaunay_Spec DelaunayGeo_Model
  DelaunayGlobal3_Spec Halo_Model Halo_Spec HaloGeo_Model HaloGeo_Spec DelaunayRemap3_Model HaloDelaunay3_Model HaloDelaunay3_Spec
  Sphere3_Proofs Tiling3_Proofs Delaunay3_Proofs DelaunayInsert_Proofs Delaunay3Insert_Proofs DelaunayLink3_Proofs DelaunayGlobal3_Proofs DelaunayUnique3_Proofs DelaunayRemap3_Proofs
  DelaunayStar3_Proofs VoronoiConstruct3_Proofs Halo_Proofs HaloGeo_Proofs HaloFinal_Proofs HaloDelaunay_Proofs HaloDelaunay3_Proofs
  Voronoi_Model Voronoi_Spec Voronoi_Proofs VoronoiConstruct_Proofs Voronoi3_Model Voronoi3_Spec Voronoi3_Proofs VoronoiGrid3_Model VoronoiGrid3_Spec.
Import ListNotations.
Local Open Scope nat_scope.

Notation rank_state := (rank_state vec3 wrap3).
Notation tri_of := (Halo_Model.tri vec3 wrap3).
Notation points := (Halo_Model.points vec3 wrap3).
Notation kinds := (Halo_Model.kinds vec3 wrap3).
Notation haloes := (Halo_Model.haloes vec3 wrap3).

Lemma order_starts3 ranks pop particles order remap outer w : starts_in_order3 ranks pop particles order remap outer w ->
  starts_from3 ranks pop particles remap outer w.
Proof.
  intros [L [P H]]. split; [exact L|]. intros r s Hr. destruct (H r s Hr) as [start [E1 E2]]. exists start, (map snd (order r)).
  split; [exact E1|]. split; [|exact E2]. now apply Permutation_map.
Qed.

(** ** Corners, then local particles, then haloes *)
Section Layout.
  Variables (cfg : config) (build_fuel : nat).
  Hypothesis F : max_depth cfg < build_fuel.
  Variables (pop : nat -> list nat -> nat) (particles order : nat -> list (nat * vec3)) (remap : vec3 -> Geometry_Model.point3).
  Variable outer : list vec3.
  Hypothesis four : length outer = 4.

  Record layout (n : nat) (local : list (nat * vec3)) (s : rank_state) : Prop := {
    ly_points : exists hs, points s = outer ++ map snd local ++ hs;
    ly_kinds : exists ks, kinds s = map (fun _ => Outer) outer ++ map (fun _ => Inner) local ++ ks /\ (forall k, In k ks -> exists q, k = Halo q);
    ly_haloes : map snd (haloes s) = seq (4 + length local) (length (haloes s));
    ly_count : length (points s) = 4 + length local + length (haloes s);
    ly_kind_count : length (kinds s) = length (points s)
  }.
  Definition lays (r : nat) (s : rank_state) : Prop := rank_delaunay3 particles remap outer r s /\ layout r (order r) s.
  Lemma lays_same r s s' : tri_of s' = tri_of s -> points s' = points s -> kinds s' = kinds s -> haloes s' = haloes s -> lays r s -> lays r s'.
  Proof.
    intros E1 E2 E3 E4 [R [a b c d e]]. split; [exact (rd3_same particles remap outer r s s' E1 E2 E3 E4 R)|].
    constructor; rewrite ?E2, ?E3, ?E4; assumption.
  Qed.
  Lemma lays_import r s x s' : lays r s -> import_halo vec3 wrap3 wrap3_eqb is_periodic3 (insert3 pop remap) r s x = Done s' -> lays r s'.
  Proof.
    intros [R [[hs a] [ks [b1 b2]] c d e]] H. split; [exact (rd3_import cfg build_fuel pop particles remap outer F four r s x s' R H)|].
    destruct x as [q x]. unfold import_halo in H. destruct (existsb _ (haloes s)) in H; [discriminate|].
    destruct (insert3 pop remap (points s ++ [r_point vec3 wrap3 x]) (tri_of s)) as [[[p new] t]|] eqn:E; [|discriminate]. injection H as <-.
    destruct (insert_rank3 cfg build_fuel pop remap outer F four _ _ _ _ _ _ (rd3_good _ _ _ _ _ R) (rd3_points _ _ _ _ _ R) E) as [_ [-> _]].
    constructor; cbn [Halo_Model.tri Halo_Model.points Halo_Model.kinds Halo_Model.haloes].
    - exists (hs ++ [r_point vec3 wrap3 x]). rewrite a, <- !app_assoc. reflexivity.
    - exists (ks ++ [Halo q]). split; [rewrite b1, <- !app_assoc; reflexivity|]. intros k Hk. apply in_app_or in Hk. destruct Hk as [Hk|[<-|[]]]; eauto.
    - rewrite map_app, app_length, c. cbn [map length snd]. rewrite Nat.add_1_r, seq_S, d. reflexivity.
    - rewrite !app_length. cbn. lia.
    - rewrite !app_length. cbn. lia.
  Qed.
  Lemma lays_start ranks w : starts_in_order3 ranks pop particles order remap outer w ->
    (0 < orient3 (positions3 remap outer 0) (positions3 remap outer 1) (positions3 remap outer 2) (positions3 remap outer 3))%Q ->
    everywhere vec3 wrap3 lays w.
  Proof.
    intros ST TU r s Hr. split.
    { exact (rd3_start ranks cfg build_fuel pop particles remap outer F four TU w (order_starts3 _ _ _ _ _ _ _ ST) r s Hr). }
    destruct ST as [L [P H]]. destruct (H r s Hr) as [start [E1 E3]]. unfold initial in E3.
    set (s0 := Build_rank_state _ _ _ _ _ _ _ _) in E3.
    assert (L0 : layout r [] s0).
    { constructor; cbn; rewrite ?map_length; auto; [exists []; now rewrite !app_nil_r|]. exists []. split; [now rewrite app_nil_r|]. intros k []. }
    assert (H0 : haloes s0 = []) by reflexivity. clearbody s0.
    assert (X : forall rest done s1, layout r done s1 -> haloes s1 = [] ->
      andthen (fold_outcome (insert_inner vec3 wrap3 (insert3 pop remap)) (map snd rest) s1)
        (fun s2 => Done (set_undecided vec3 wrap3 s2 (map (fun i => (i, None)) (filter (should_be_checked vec3 wrap3 s2) (map fst (tetras (tri_of s2))))))) = Done s ->
      layout r (done ++ rest) s).
    { induction rest as [|x rest IH]; intros done s1 [[hs a] [ks [b1 b2]] c d e] H1 E.
      - cbn [map fold_outcome andthen] in E. injection E as <-. rewrite app_nil_r. constructor; eauto.
      - cbn [map fold_outcome] in E. destruct (insert_inner vec3 wrap3 (insert3 pop remap) s1 (snd x)) as [s2|] eqn:E2; cbn [andthen] in E; [|discriminate].
        replace (done ++ x :: rest) with ((done ++ [x]) ++ rest) by (rewrite <- app_assoc; reflexivity).
        unfold insert_inner in E2. destruct (insert3 pop remap (points s1 ++ [snd x]) (tri_of s1)) as [[[p new] t]|] eqn:E4; [|discriminate]. injection E2 as <-.
        assert (HS : hs = []). { rewrite H1 in d. rewrite a, !app_length, map_length in d. cbn in d. destruct hs; [reflexivity|cbn in d; lia]. }
        assert (KS : ks = []). { rewrite b1, a, !app_length, !map_length, HS in e. cbn in e. destruct ks; [reflexivity|cbn in e; lia]. }
        subst hs ks. rewrite app_nil_r in a, b1.
        apply (IH (done ++ [x]) _) in E; [exact E| |exact H1].
        constructor; cbn [Halo_Model.tri Halo_Model.points Halo_Model.kinds Halo_Model.haloes].
        + exists []. rewrite app_nil_r, a, map_app, <- app_assoc. reflexivity.
        + exists []. split; [|intros k []]. rewrite app_nil_r, b1, map_app, <- app_assoc. reflexivity.
        + rewrite H1. reflexivity.
        + rewrite H1 in *. rewrite !app_length. cbn in *. lia.
        + rewrite !app_length. cbn. lia. }
    exact (X (order r) [] s0 L0 H0 E3).
  Qed.
End Layout.

(** ** The points of a rank at the end of the iteration *)
Lemma image_type_inj r q x w q' x' w' : image_type3 r q x w = image_type3 r q' x' w' -> (is_periodic3 w = false -> w = (NoWrap, NoWrap, NoWrap)) ->
  q = q' /\ x = x' /\ w = w'.
Proof.
  assert (U : forall v, is_periodic3 v = false -> v = (NoWrap, NoWrap, NoWrap)) by (intros v H; apply one_unwrapped3; auto).
  unfold image_type3. intros E _. destruct (is_periodic3 w) eqn:E1; destruct (is_periodic3 w') eqn:E2;
    destruct (Nat.eqb_spec q r); destruct (Nat.eqb_spec q' r); try discriminate; injection E; intros; subst; auto;
    rewrite (U _ E1), (U _ E2); auto.
Qed.

Lemma similar_orient3 remap : similar3 remap -> exists (f : Geometry_Model.point3 -> Geometry_Model.point3) k, (0 < k)%Q /\ (forall v, remap v = f (to_point3 v)) /\
  (forall a b c d, orient3 (f a) (f b) (f c) (f d) == k * orient3 a b c d)%Q.
Proof.
  intros [f [k [cx [cy [cz [K [E H]]]]]]]. exists f, (k * k * k)%Q. split; [|split; [exact E|]].
  - assert (0 < k * k)%Q by nra. nra.
  - intros a b c d.
    assert (S : forall p, same_point3 (f p) (Geometry_Model.P3 (k * Geometry_Model.x3 p + cx) (k * Geometry_Model.y3 p + cy) (k * Geometry_Model.z3 p + cz))) by exact H.
    rewrite (S a), (S b), (S c), (S d). clear. unfold orient3, volume6, triple. destruct a, b, c, d.
    cbn [Geometry_Model.x3 Geometry_Model.y3 Geometry_Model.z3 Geometry_Model.ttp1 Geometry_Model.ttp2 Geometry_Model.ttp3 Geometry_Model.ttp4]. ring.
Qed.
Section Similar.
  Variable remap : vec3 -> Geometry_Model.point3.
  Hypothesis similar : similar3 remap.
  Lemma similar_scale3 : exists g k k', (0 < k)%Q /\ (0 < k')%Q /\ (forall o v, dist2_3 o (remap v) == k * dist2_3 (g o) (to_point3 v))%Q /\
    (forall o, exists o', forall v, dist2_3 o' (remap v) == k * dist2_3 o (to_point3 v))%Q /\
    (forall a b c d, orient3 (remap a) (remap b) (remap c) (remap d) == k' * orient3 (to_point3 a) (to_point3 b) (to_point3 c) (to_point3 d))%Q.
  Proof.
    destruct (similar_orient3 remap similar) as [f' [k' [K' [E' O]]]]. destruct similar as [f [k [cx [cy [cz [K [E H]]]]]]].
    exists (fun o => Geometry_Model.P3 ((Geometry_Model.x3 o - cx) / k) ((Geometry_Model.y3 o - cy) / k) ((Geometry_Model.z3 o - cz) / k)), (k * k)%Q, k'.
    split; [nra|]. split; [exact K'|]. split; [|split].
    - intros o v. rewrite E. destruct (H (to_point3 v)) as [A [B C]]. unfold dist2_3. rewrite A, B, C. cbn. field. intro Z. rewrite Z in K. lra.
    - intro o. exists (f o). intro v. rewrite E. destruct (H (to_point3 v)) as [A [B C]]. destruct (H o) as [A' [B' C']]. unfold dist2_3. rewrite A, B, C, A', B', C'. ring.
    - intros a b c d. rewrite !E'. apply O.
  Qed.
  Lemma similar_same3 p q : same_position3 p q <-> same_point3 (remap p) (remap q).
  Proof.
    destruct similar as [f [k [cx [cy [cz [K [E H]]]]]]]. rewrite !E. destruct (H (to_point3 p)) as [A [B C]]. destruct (H (to_point3 q)) as [A' [B' C']].
    unfold same_point3. rewrite A, B, C, A', B', C'. cbn [to_point3 Geometry_Model.x3 Geometry_Model.y3 Geometry_Model.z3].
    unfold same_position3. split; intros [X [Y Z]]; [rewrite X, Y, Z; repeat split; reflexivity|].
    repeat split; apply (Qmult_inj_l _ _ k); lra.
  Qed.
  Lemma similar_spheres3 circumcircle : covers_spheres3 to_point3 circumcircle -> covers_spheres3 remap circumcircle.
  Proof.
    intros H a b c d o p center radius t NZ [C1 [C2 C3]] EC LE. subst t. cbn [Geometry_Model.ttp1 Geometry_Model.ttp2 Geometry_Model.ttp3 Geometry_Model.ttp4] in C1, C2, C3.
    destruct similar_scale3 as [g [k [k' [Kp [Kp' [D1 [D2 D3]]]]]]]. rewrite !D1 in C1, C2, C3, LE.
    apply (H a b c d (g o) p center radius); auto.
    - intro Z. apply NZ. change (orient3 (remap a) (remap b) (remap c) (remap d) == 0)%Q. rewrite D3. unfold orient3. rewrite Z. ring.
    - split; [|split]; cbn [Geometry_Model.ttp1 Geometry_Model.ttp2 Geometry_Model.ttp3 Geometry_Model.ttp4]; apply (Qmult_inj_l _ _ k); lra.
    - now apply (Qmult_le_l _ _ k).
  Qed.
  Lemma similar_delaunay3 site a b c d : delaunay_tetra remap site a b c d <-> delaunay_tetra to_point3 site a b c d.
  Proof.
    destruct similar_scale3 as [g [k [k' [Kp [Kp' [D1 [D2 D3]]]]]]]. unfold delaunay_tetra.
    assert (EQ : (volume6 (Geometry_Model.TT (remap a) (remap b) (remap c) (remap d)) == 0 <->
      volume6 (Geometry_Model.TT (to_point3 a) (to_point3 b) (to_point3 c) (to_point3 d)) == 0)%Q).
    { pose proof (D3 a b c d) as X. unfold orient3 in X. rewrite X. split; intro Z; [|rewrite Z; ring]. apply (Qmult_inj_l _ _ k'); lra. }
    rewrite EQ. split; (intros [NZ [o [[C1 [C2 C3]] H]]]; split; [exact NZ|]);
      cbn [Geometry_Model.ttp1 Geometry_Model.ttp2 Geometry_Model.ttp3 Geometry_Model.ttp4] in C1, C2, C3.
    - exists (g o). rewrite !D1 in C1, C2, C3. split.
      + split; [|split]; cbn [Geometry_Model.ttp1 Geometry_Model.ttp2 Geometry_Model.ttp3 Geometry_Model.ttp4]; apply (Qmult_inj_l _ _ k); lra.
      + intros y Hy. destruct (H y Hy) as [K|K]; [left|now right]. rewrite !D1 in K. now apply (Qmult_lt_l _ _ k).
    - destruct (D2 o) as [o' D2']. exists o'. split.
      + split; [|split]; cbn [Geometry_Model.ttp1 Geometry_Model.ttp2 Geometry_Model.ttp3 Geometry_Model.ttp4]; rewrite !D2', ?C1, ?C2, ?C3; reflexivity.
      + intros y Hy. destruct (H y Hy) as [K|K]; [left|now right]. rewrite !D2'. now apply (Qmult_lt_l _ _ k).
  Qed.
End Similar.
(** In a cube the coordinates of the code are of this kind, and the corners of its initial tetrahedron are far enough away. *)
Lemma box_similar3 box : proper3 box -> (x3 (max3 box) - x3 (min3 box) == y3 (max3 box) - y3 (min3 box))%Q /\ (x3 (max3 box) - x3 (min3 box) == z3 (max3 box) - z3 (min3 box))%Q ->
  similar3 (box_remap3 box).
Proof.
  intros PB [Q1 Q2]. destruct (box_remap_eq3 box PB) as [min [max [emin [emax [_ [_ [E [A [B [C [W1 [W2 W3]]]]]]]]]]]].
  set (k := (Geometry_Model.x3 emax - Geometry_Model.x3 emin)%Q) in *.
  exists (remap3 emin emax), (/ k)%Q, (1 - Geometry_Model.x3 emin / k)%Q, (1 - Geometry_Model.y3 emin / k)%Q, (1 - Geometry_Model.z3 emin / k)%Q.
  assert (K : (0 < k)%Q) by (unfold k; lra). assert (NK : ~ (k == 0)%Q) by lra. split; [now apply Qinv_lt_0_compat|]. split; [exact E|].
  assert (E2 : (Geometry_Model.y3 emax - Geometry_Model.y3 emin == k)%Q) by lra. assert (E3 : (Geometry_Model.z3 emax - Geometry_Model.z3 emin == k)%Q) by lra.
  intro p. unfold remap3. cbn [Geometry_Model.x3 Geometry_Model.y3 Geometry_Model.z3]. fold k. rewrite ?E2, ?E3. repeat split; field; exact NK.
Qed.
Lemma box_starts3 box : proper3 box -> starts_with3 (box_remap3 box) (box_outer3 box).
Proof. intro PB. split; [unfold box_outer3; destruct (box_extent3 box); reflexivity|]. exact (box_turn3 box PB). Qed.
Lemma square_ge (a t : Q) : (0 <= a -> a <= t \/ t <= - a -> a * a <= t * t)%Q.
Proof. intros A [H|H]; nra. Qed.
Lemma box_far3 box : proper3 box -> far_outer3 box (box_outer3 box).
Proof.
  intros [Px [Py Pz]] v o H. cbv zeta. intros [X1 X2] [Y1 Y2] [Z1 Z2]. unfold box_outer3, box_extent3, including_periodic_images3, Geometry_Model.all_encompassing3 in H.
  destruct box as [[ax ay az] [bx by_ bz]]. cbn [min3 max3 x3 y3 z3] in *.
  cbv beta iota zeta delta [to_point3 of_point3 Geometry_Model.sub3 Geometry_Model.add3 Geometry_Model.scale3 Geometry_Model.ttp1 Geometry_Model.ttp2 Geometry_Model.ttp3 Geometry_Model.ttp4
    Geometry_Model.x3 Geometry_Model.y3 Geometry_Model.z3 x3 y3 z3 min3 max3] in H.
  unfold dist2_3, to_point3. destruct o as [ox oy oz]. cbn [Geometry_Model.x3 Geometry_Model.y3 Geometry_Model.z3 x3 y3 z3] in *.
  assert (GX : (0 < bx - ax)%Q) by lra. assert (GY : (0 < by_ - ay)%Q) by lra. assert (GZ : (0 < bz - az)%Q) by lra.
  assert (AXX : (0 < (bx - ax) * (bx - ax))%Q) by nra. assert (AYY : (0 < (by_ - ay) * (by_ - ay))%Q) by nra. assert (AZZ : (0 < (bz - az) * (bz - az))%Q) by nra.
  pose proof (fun t => square_ge ((51#100) * (bx - ax)) t ltac:(lra)) as SX. pose proof (fun t => square_ge ((51#100) * (by_ - ay)) t ltac:(lra)) as SY.
  pose proof (fun t => square_ge ((51#100) * (bz - az)) t ltac:(lra)) as SZ.
  pose proof (fun t => square_ge ((1#2) * (bx - ax)) t ltac:(lra)) as HX. pose proof (fun t => square_ge ((1#2) * (by_ - ay)) t ltac:(lra)) as HY.
  pose proof (fun t => square_ge ((1#2) * (bz - az)) t ltac:(lra)) as HZ.
  destruct H as [<-|[<-|[<-|[<-|[]]]]]; cbn [x3 y3 z3];
    match goal with |- (_ < (ox - ?a) * _ + (oy - ?b) * _ + (oz - ?c) * _)%Q => set (A := a); set (B := b); set (C := c) end.
  - assert (E1 : ((51#100) * (bx - ax) <= ox - A)%Q) by (unfold A; lra). assert (E2 : ((51#100) * (by_ - ay) <= oy - B)%Q) by (unfold B; lra).
    assert (E3 : ((51#100) * (bz - az) <= oz - C)%Q) by (unfold C; lra).
    pose proof (SX (ox - A)%Q (or_introl E1)). pose proof (SY (oy - B)%Q (or_introl E2)). pose proof (SZ (oz - C)%Q (or_introl E3)). lra.
  - assert (E1 : (ox - A <= - ((51#100) * (bx - ax)))%Q) by (unfold A; lra). assert (E2 : ((1#2) * (by_ - ay) <= oy - B)%Q) by (unfold B; lra).
    assert (E3 : ((1#2) * (bz - az) <= oz - C)%Q) by (unfold C; lra).
    pose proof (SX (ox - A)%Q (or_intror E1)). pose proof (HY (oy - B)%Q (or_introl E2)). pose proof (HZ (oz - C)%Q (or_introl E3)). lra.
  - assert (E1 : ((1#2) * (bx - ax) <= ox - A)%Q) by (unfold A; lra). assert (E2 : (oy - B <= - ((51#100) * (by_ - ay)))%Q) by (unfold B; lra).
    assert (E3 : ((1#2) * (bz - az) <= oz - C)%Q) by (unfold C; lra).
    pose proof (HX (ox - A)%Q (or_introl E1)). pose proof (SY (oy - B)%Q (or_intror E2)). pose proof (HZ (oz - C)%Q (or_introl E3)). lra.
  - assert (E1 : ((1#2) * (bx - ax) <= ox - A)%Q) by (unfold A; lra). assert (E2 : ((1#2) * (by_ - ay) <= oy - B)%Q) by (unfold B; lra).
    assert (E3 : (oz - C <= - ((51#100) * (bz - az)))%Q) by (unfold C; lra).
    pose proof (HX (ox - A)%Q (or_introl E1)). pose proof (HY (oy - B)%Q (or_introl E2)). pose proof (SZ (oz - C)%Q (or_intror E3)). lra.
Qed.
Lemma pos_factor (k x : Q) : (0 < k)%Q -> (0 < k * x)%Q -> (0 < x)%Q.
Proof. intros K H. destruct (Qlt_le_dec 0 x) as [|L]; [assumption|exfalso]. assert (0 <= k * - x)%Q by (apply Qmult_le_0_compat; lra). lra. Qed.

Section Rank.
  Variables (ranks : nat) (cfg : config) (build_fuel search_fuel : nat) (pop : nat -> list nat -> nat).
  Variables (box : extent3) (particles order : nat -> list (nat * vec3)).
  Variables (circumcircle : list vec3 -> vec3 * Q) (characteristic_length : Q) (chunk_size : nat).
  Hypothesis D : distributed3 ranks box particles.
  Hypothesis F : max_depth cfg < build_fuel.
  Variables (remap : vec3 -> Geometry_Model.point3) (outer : list vec3).
  Hypothesis similar : similar3 remap.
  Hypothesis corners : starts_with3 remap outer.
  Variables (fuel : nat) (w w' : list rank_state).
  Hypothesis start : starts_in_order3 ranks pop particles order remap outer w.
  Hypothesis ended : run3 ranks cfg build_fuel search_fuel pop box particles remap circumcircle characteristic_length chunk_size fuel w = Some (Done w').
  Notation image := (image_of vec3 wrap3 (images3 box) particles).

  Lemma four : length outer = 4.
  Proof. apply corners. Qed.
  Variable hash_set : list nat -> list nat.
  Hypothesis hash : iterates_set hash_set.
  Variables (r : nat) (s : rank_state).
  Hypothesis here : nth_error w' r = Some s.
  Notation local := (order r).
  Notation n := (length local).
  Notation h := (length (haloes s)).

  Lemma lays_here : lays particles order remap outer r s /\ steps (round3 ranks cfg build_fuel search_fuel pop characteristic_length chunk_size box particles remap circumcircle) w w'.
  Proof.
    destruct (run_keeps vec3 wrap3 wrap3_eqb is_periodic3 (images3 box) closer3 _ _ circumcircle (insert3 pop remap) characteristic_length chunk_size
      (lays particles order remap outer) (lays_same particles order remap outer) (lays_import cfg build_fuel F pop particles order remap outer four) fuel w w'
      (lays_start cfg build_fuel F pop particles order remap outer four ranks w start (proj2 corners)) ended) as [A SS].
    split; [exact (A r s here)|exact SS].
  Qed.
  Lemma rank_is : rank_delaunay3 particles remap outer r s.
  Proof. apply lays_here. Qed.
  Lemma layout_is : layout outer r local s.
  Proof. apply lays_here. Qed.
  Lemma count_is : num_points (tri_of s) = 4 + n + h.
  Proof. rewrite <- (rd3_points _ _ _ _ _ rank_is). apply (ly_count _ _ _ _ layout_is). Qed.
  Lemma sound_is : NoDup (map fst (haloes s)) /\ (forall k i, In (k, i) (haloes s) -> exists q x wr p, k = image_type3 r q x wr /\
    foreign wrap3 is_periodic3 r q wr /\ image q x wr p /\ nth_error (points s) i = Some p).
  Proof.
    pose proof (starts_from_starts3 ranks pop particles remap outer four w (order_starts3 _ _ _ _ _ _ _ start)) as ST2.
    destruct (sound3 ranks cfg build_fuel search_fuel pop box particles remap circumcircle characteristic_length chunk_size D F w w' r s ST2 (proj2 lays_here) here) as [A B].
    split; [exact A|]. intros k i Hk. destruct (B k i Hk) as [q [x [wr [p [-> [Y [Z V]]]]]]]. exists q, x, wr, p.
    split; [|auto]. unfold halo_key, image_type3. destruct (Nat.eqb_spec q r) as [->|]; [|reflexivity].
    destruct Y as [Y|Y]; [congruence|]. rewrite Y. reflexivity.
  Qed.
  Lemma outer_is p : p < num_points (tri_of s) -> is_outer3 s p = (p <? 4).
  Proof.
    intro H. rewrite count_is in H. unfold is_outer3. destruct (ly_kinds _ _ _ _ layout_is) as [ks [-> K]]. pose proof four as T.
    destruct (Nat.ltb_spec p 4) as [L|L].
    - rewrite nth_error_app1 by (rewrite map_length; lia).
      destruct (nth_error outer p) as [x|] eqn:E; [|apply nth_error_None in E; lia]. rewrite (map_nth_error _ _ _ E). reflexivity.
    - rewrite nth_error_app2 by (rewrite map_length; lia). rewrite map_length, T. destruct (nth_error _ (p - 4)) as [k|] eqn:E; [|reflexivity].
      apply nth_error_In in E. apply in_app_or in E. destruct E as [E|E].
      + apply in_map_iff in E. destruct E as [x [<- _]]. reflexivity.
      + destruct (K k E) as [q ->]. reflexivity.
  Qed.
  Notation m := (point_map3 local s).
  Lemma map_snds : map snd m = seq 4 (n + h).
  Proof.
    unfold point_map3. rewrite map_app, VoronoiGrid_Proofs.combine_snd by (now rewrite map_length, seq_length).
    unfold ptype3. rewrite (ly_haloes _ _ _ _ layout_is), seq_app. reflexivity.
  Qed.
  Lemma in_map_cases t p : In (t, p) m <-> (4 <= p < 4 + n /\ exists x, nth_error local (p - 4) = Some x /\ t = Local wrap3 (fst x)) \/ In (t, p) (haloes s).
  Proof.
    unfold point_map3. rewrite in_app_iff.
    replace (seq 4 (length local)) with (seq 4 (length (map (fun x : nat * vec3 => Local wrap3 (fst x)) local))) by (now rewrite map_length).
    rewrite VoronoiGrid_Proofs.combine_seq. split.
    - intros [[H1 H2]|H]; [|now right]. left. destruct (nth_error local (p - 4)) as [x|] eqn:E.
      + assert (p - 4 < n) by (apply nth_error_Some; congruence). split; [lia|]. exists x. split; [reflexivity|].
        rewrite VoronoiGrid_Proofs.nth_map, E in H2. cbn in H2. congruence.
      + rewrite VoronoiGrid_Proofs.nth_map, E in H2. discriminate.
    - intros [[H1 [x [H2 ->]]]|H]; [|now right]. left. split; [lia|]. now rewrite VoronoiGrid_Proofs.nth_map, H2.
  Qed.
  Lemma cell_map_some p t : cell_of_point3 m p = Some t <-> In (t, p) m.
  Proof.
    unfold cell_of_point3. split.
    - destruct (find _ m) as [[t' p']|] eqn:E; [|discriminate]. cbn. intro H. injection H as ->. apply find_some in E. cbn in E.
      destruct E as [E1 E2]. apply Nat.eqb_eq in E2. subst. exact E1.
    - intro H. rewrite (VoronoiGrid_Proofs.find_snd m t p); [reflexivity| |exact H]. rewrite map_snds. apply seq_NoDup.
  Qed.
  Definition type_at (p : nat) : ptype3 := if p <? 4 then Boundary wrap3 else match cell_of_point3 m p with Some t => t | None => Boundary wrap3 end.
  Lemma types_are q : q < num_points (tri_of s) -> if q <? 4 then type_at q = Boundary wrap3 else cell_of_point3 m q = Some (type_at q).
  Proof.
    intro H. unfold type_at. destruct (Nat.ltb_spec q 4) as [L|L]; [reflexivity|].
    assert (I : In q (map snd m)) by (rewrite map_snds; apply in_seq; rewrite count_is in H; lia).
    apply in_map_iff in I. destruct I as [[t p] [<- I]]. cbn [snd]. rewrite (proj2 (cell_map_some p t) I). reflexivity.
  Qed.
  Lemma type_in p : 4 <= p < num_points (tri_of s) -> In (type_at p, p) m.
  Proof.
    intros [H1 H2]. apply cell_map_some. pose proof (types_are p H2) as X. destruct (Nat.ltb_spec p 4); [lia|exact X].
  Qed.
  Lemma in_type t p : In (t, p) m -> 4 <= p < num_points (tri_of s) /\ type_at p = t.
  Proof.
    intro H. assert (I : In p (map snd m)) by (change p with (snd (t, p)); now apply in_map). rewrite map_snds, in_seq in I.
    rewrite count_is. split; [lia|]. unfold type_at. destruct (Nat.ltb_spec p 4); [lia|]. now rewrite (proj2 (cell_map_some p t) H).
  Qed.
  Lemma nth_local p x : nth_error local (p - 4) = Some x -> 4 <= p -> nth_error (points s) p = Some (snd x).
  Proof.
    intros H L. destruct (ly_points _ _ _ _ layout_is) as [hs ->]. rewrite nth_error_app2 by (rewrite four; lia). rewrite four.
    assert (p - 4 < n) by (apply nth_error_Some; congruence). rewrite nth_error_app1 by (now rewrite map_length). now apply map_nth_error.
  Qed.
  Lemma local_particles x : In x local <-> In x (particles r).
  Proof. destruct start as [_ [P _]]. split; intro H; [exact (Permutation_in _ (P r) H)|exact (Permutation_in _ (Permutation_sym (P r)) H)]. Qed.
  Lemma local_ids : NoDup (map fst local).
  Proof. destruct start as [_ [P _]]. apply (Permutation_NoDup (Permutation_map fst (Permutation_sym (P r)))). apply (di3_ids _ _ _ D). Qed.
  (** What the points stand for. *)
  Lemma point_image p : 4 <= p < num_points (tri_of s) -> exists q x wr pos pos', type_at p = image_type3 r q x wr /\ image q x wr pos' /\
    nth_error (points s) p = Some pos /\ same_position3 pos pos' /\ (p < 4 + n <-> q = r /\ is_periodic3 wr = false).
  Proof.
    intro H. pose proof (type_in p H) as I. apply in_map_cases in I. destruct I as [[L [[x pos] [X1 X2]]]|I].
    - pose proof (nth_local p _ X1 (proj1 L)) as Ep. apply nth_error_In in X1. apply local_particles in X1.
      destruct (unwrapped3 box particles x pos r X1) as [pos' [Y1 Y2]].
      exists r, x, (NoWrap, NoWrap, NoWrap), pos, pos'. split; [rewrite X2; unfold image_type3; cbn; now rewrite Nat.eqb_refl|].
      split; [exact Y1|]. split; [exact Ep|]. split; [exact Y2|]. split; [auto|lia].
    - destruct (proj2 sound_is _ _ I) as [q [x [wr [pos [E [FO [IM Np]]]]]]]. exists q, x, wr, pos, pos. split; [exact E|].
      split; [exact IM|]. split; [exact Np|]. split; [repeat split; reflexivity|].
      assert (p >= 4 + n). { apply (in_map snd) in I. unfold ptype3 in I. rewrite (ly_haloes _ _ _ _ layout_is), in_seq in I. cbn [snd] in I. lia. }
      split; [lia|]. intros [-> E2]. destruct FO as [FO|FO]; congruence.
  Qed.
  Lemma image_local x wr : is_periodic3 wr = false -> image_type3 r r x wr = Local wrap3 x.
  Proof. intro E. unfold image_type3. rewrite E, Nat.eqb_refl. reflexivity. Qed.
  Lemma type_local p : 4 <= p < 4 + n <-> p < num_points (tri_of s) /\ exists x, type_at p = Local wrap3 x.
  Proof.
    rewrite count_is. split.
    - intro H. split; [lia|]. destruct (point_image p) as [q [x [wr [pos [pos' [E [_ [_ [_ K]]]]]]]]]; [rewrite count_is; lia|].
      destruct (proj1 K (proj2 H)) as [-> P]. exists x. rewrite E. now apply image_local.
    - intros [H [x E]]. assert (L : 4 <= p). { unfold type_at in E. destruct (Nat.ltb_spec p 4); [discriminate|lia]. }
      split; [exact L|]. destruct (point_image p) as [q [y [wr [pos [pos' [E' [_ [_ [_ K]]]]]]]]]; [rewrite count_is; lia|].
      apply K. rewrite E in E'. unfold image_type3 in E'. destruct (is_periodic3 wr); destruct (Nat.eqb_spec q r); try discriminate; auto.
  Qed.
  Lemma type_inj p q : 4 <= p < num_points (tri_of s) -> 4 <= q < num_points (tri_of s) -> type_at p = type_at q -> p = q.
  Proof.
    intros Hp Hq E. pose proof (type_in p Hp) as Ip. pose proof (type_in q Hq) as Iq. rewrite <- E in Iq.
    assert (N : NoDup (map fst m)).
    { unfold point_map3. rewrite map_app, VoronoiGrid_Proofs.combine_fst by (now rewrite map_length, seq_length).
      pose proof local_ids as L. pose proof (proj1 sound_is) as H.
      assert (A : NoDup (map (fun x : nat * vec3 => Local wrap3 (fst x)) local)).
      { rewrite <- map_map with (f := fst) (g := fun x => Local wrap3 x). apply FinFun.Injective_map_NoDup; [|exact L]. intros a b X. now injection X. }
      revert A. induction (map (fun x : nat * vec3 => Local wrap3 (fst x)) local) as [|y ys IH] eqn:EY; [intros _; exact H|].
      intro A. clear IH. rewrite <- EY in *. clear EY. revert A.
      assert (S : forall y, In y (map (fun x : nat * vec3 => Local wrap3 (fst x)) local) -> ~ In y (map fst (haloes s))).
      { intros z Hz Hz'. apply in_map_iff in Hz. destruct Hz as [x [<- _]]. apply in_map_iff in Hz'. destruct Hz' as [[k i] [K1 K2]]. cbn in K1.
        destruct (proj2 sound_is _ _ K2) as [q0 [x0 [wr [pos [E0 [FO _]]]]]]. rewrite K1 in E0. unfold image_type3 in E0.
        destruct (is_periodic3 wr) eqn:EW; destruct (Nat.eqb_spec q0 r); try discriminate. destruct FO; congruence. }
      intro A. revert S A. generalize (map (fun x : nat * vec3 => Local wrap3 (fst x)) local). intros zs. induction zs as [|z zs IH]; intros S A; [exact H|].
      cbn. apply NoDup_cons_iff in A. destruct A as [A1 A2]. constructor; [|apply IH; auto; intros; apply S; now right].
      rewrite in_app_iff. intros [B|B]; [auto|]. exact (S z (or_introl eq_refl) B). }
    clear -N Ip Iq. induction m as [|[t v] l IH]; [destruct Ip|]. cbn in N. apply NoDup_cons_iff in N. destruct N as [N1 N2].
    destruct Ip as [Ip|Ip]; destruct Iq as [Iq|Iq].
    - congruence.
    - exfalso. apply N1. injection Ip as -> ->. change (type_at p) with (fst (type_at p, q)). now apply in_map.
    - exfalso. apply N1. injection Iq as -> ->. change (type_at p) with (fst (type_at p, p)). now apply in_map.
    - auto.
  Qed.
  (** ** The cells *)
  Lemma ccw_is i a b c d : tet (tri_of s) i a b c d -> (0 < orient3 (original_point3 s a) (original_point3 s b) (original_point3 s c) (original_point3 s d))%Q.
  Proof.
    intro H. pose proof (t3_pos _ _ _ (g3_tiling _ _ (rd3_good _ _ _ _ _ rank_is)) _ _ _ _ _ H) as P.
    destruct (similar_orient3 remap similar) as [f [k [KP [E FO]]]]. unfold positions3 in P. rewrite !E, FO in P.
    exact (pos_factor _ _ KP P).
  Qed.
  Definition cell_is (p : nat) (c : cell3 ptype3) : Prop :=
    new_cell3 ptype3 (Boundary wrap3) (original_point3 s) (is_outer3 s) (cell_of_point3 m) hash_set (tri_of s) p = Some c /\ cell_of3 (original_point3 s) (tri_of s) type_at p c.
  Lemma cell_ok p : 4 <= p < num_points (tri_of s) -> exists c,
    new_cell3 ptype3 (Boundary wrap3) (original_point3 s) (is_outer3 s) (cell_of_point3 m) hash_set (tri_of s) p = Some c /\ cell_is p c.
  Proof.
    intro H. assert (X : exists c, new_cell3 ptype3 (Boundary wrap3) (original_point3 s) (is_outer3 s) (cell_of_point3 m) hash_set (tri_of s) p = Some c /\ cell_of3 (original_point3 s) (tri_of s) type_at p c);
      [|destruct X as [c [X1 X2]]; exists c; split; [exact X1|split; assumption]].
    exact (new_cell_ok3 ptype3 (Boundary wrap3) _ (original_point3 s) (is_outer3 s) (cell_of_point3 m) hash_set type_at (tri_of s) p
      (rd3_good _ _ _ _ _ rank_is) H outer_is types_are hash ccw_is).
  Qed.
  Lemma outer_filter : filter (fun p => negb (is_outer3 s p)) (seq 0 (num_points (tri_of s))) = seq 4 (n + h).
  Proof.
    rewrite <- filter_seq_outer3. replace (n + h + 4) with (num_points (tri_of s)) by (rewrite count_is; lia).
    apply filter_ext_in. intros p Hp. apply in_seq in Hp. rewrite outer_is by lia. reflexivity.
  Qed.
  Theorem rank_cells_ok : exists cells, rank_cells3 hash_set local s = Some cells /\ Forall2 cell_is (seq 4 (n + h)) cells.
  Proof.
    unfold rank_cells3, construct_voronoi3. rewrite outer_filter. apply map_option_forall. intros p Hp. apply in_seq in Hp.
    apply cell_ok. rewrite count_is. lia.
  Qed.
  Variable periodic : bool.
  Definition grid_of (c : cell3 ptype3) : grid_cell3 :=
    GridCell3 (map (fun f => VFace3 (map_ptype3 (connection3 f) periodic) (normal3 f) (polygon f)) (cell_faces3 c)) (cell_volume3 c).
  Definition entry (p : nat) (e : ptype3 * grid_cell3) : Prop := exists c, cell_is p c /\ e = (map_ptype3 (type_at p) periodic, grid_of c).
  Lemma sweep_grid_ok : exists g, sweep_grid3 hash_set local s periodic = Some g /\ Forall2 entry (seq 4 (n + h)) g.
  Proof.
    destruct rank_cells_ok as [cells [E FA]]. unfold sweep_grid3. rewrite E. cbn [bind].
    assert (B : forall c, In c cells -> exists p, In p (seq 4 (n + h)) /\ cell_is p c) by (intros c Hc; exact (Forall2_in_r _ _ _ _ FA Hc)).
    assert (K : forall p, In p (seq 4 (n + h)) -> get_particle_type ptype3 (Boundary wrap3) (is_outer3 s) (cell_of_point3 m) p = Some (type_at p)).
    { intros p Hp. apply in_seq in Hp. unfold get_particle_type. rewrite outer_is by (rewrite count_is; lia).
      pose proof (types_are p) as T. rewrite count_is in T. specialize (T ltac:(lia)). destruct (Nat.ltb_spec p 4); [lia|exact T]. }
    clear E B. revert K. induction FA as [|p c ps cs H FA IH]; intro K; cbn [map_option].
    - exists []. split; [reflexivity|constructor].
    - rewrite (cl3_point _ _ _ _ _ (proj2 H)), (K p (or_introl eq_refl)). cbn [bind].
      destruct IH as [g [-> G]]; [intros; apply K; now right|]. cbn [bind]. eexists. split; [reflexivity|]. constructor; [|exact G]. exists c. auto.
  Qed.
  Lemma foreign_type p : 4 + n <= p < 4 + n + h -> forall x, map_ptype3 (type_at p) periodic <> Local wrap3 x.
  Proof.
    intros H x E. assert (X : exists x, type_at p = Local wrap3 x).
    { unfold map_ptype3 in E. destruct periodic; [eauto|]. destruct (type_at p); try discriminate; eauto. }
    assert (4 <= p < 4 + n); [|lia]. apply type_local. rewrite count_is. split; [lia|exact X].
  Qed.
  Definition local_entry (xp : (nat * vec3) * nat) (e : nat * grid_cell3) : Prop :=
    fst e = fst (fst xp) /\ nth_error (points s) (snd xp) = Some (snd (fst xp)) /\ type_at (snd xp) = Local wrap3 (fst (fst xp)) /\
    exists c, cell_is (snd xp) c /\ snd e = grid_of c.
  Theorem construct_grid_ok : exists g, construct_grid3 hash_set local s periodic = Some g /\
    Forall2 local_entry (combine local (seq 4 n)) (local_cells3 g) /\
    (forall q x, In (q, x) (halo_ids3 g) <-> q <> r /\ exists p c wr, cell_is p c /\ 4 + n <= p < 4 + n + h /\ type_at p = image_type3 r q x wr /\
       (is_periodic3 wr = true -> periodic = true) /\ existsb (fun f => is_local3 (connection3 f)) (neighbours3 (grid_of c)) = true).
  Proof.
    destruct sweep_grid_ok as [g [E FA]]. unfold construct_grid3. rewrite E. cbn [bind]. eexists. split; [reflexivity|]. cbn [local_cells3 halo_ids3].
    rewrite seq_app in FA. apply Forall2_app_inv_l in FA. destruct FA as [g1 [g2 [F1 [F2 ->]]]]. split.
    - match goal with |- Forall2 _ _ (flat_map ?f _) => set (ff := f) end. rewrite flat_map_app.
      assert (X2 : forall ps es, Forall2 entry ps es -> (forall p, In p ps -> 4 + n <= p < 4 + n + h) ->
        flat_map ff es = []).
      { induction 1 as [|p e ps es [c [_ ->]] H IH]; intro B; [reflexivity|]. cbn [flat_map]. unfold ff at 1. cbn [fst snd].
        rewrite IH by (intros; apply B; now right). pose proof (foreign_type p (B p (or_introl eq_refl))) as FT.
        destruct (map_ptype3 (type_at p) periodic); try reflexivity. exfalso. now apply (FT id). }
      assert (Y : flat_map ff g2 = []) by (apply (X2 _ _ F2); intros p Hp; apply in_seq in Hp; lia).
      match goal with |- Forall2 _ _ (?a ++ ?b) => replace b with (@nil (nat * grid_cell3)) by (symmetry; exact Y); rewrite app_nil_r end. clear X2 F2 E Y.
      assert (X : forall l a es, Forall2 entry (seq a (length l)) es -> 4 <= a -> (forall k x, nth_error l k = Some x -> nth_error local (a - 4 + k) = Some x) ->
        Forall2 local_entry (combine l (seq a (length l))) (flat_map ff es)).
      { induction l as [|x l IH]; intros a es F3 L H; cbn [length seq combine] in *; inversion F3; subst; [constructor|].
        match goal with X : entry a _ |- _ => destruct X as [c [C ->]] end. cbn [flat_map]. unfold ff at 1. cbn [fst snd].
        pose proof (H 0 x eq_refl) as H0. rewrite Nat.add_0_r in H0.
        assert (T : type_at a = Local wrap3 (fst x)).
        { apply in_type. apply in_map_cases. left. assert (a - 4 < n) by (apply nth_error_Some; congruence). split; [lia|]. eauto. }
        rewrite T. replace (map_ptype3 (Local wrap3 (fst x)) periodic) with (Local wrap3 (fst x)) by (now destruct periodic).
        cbn [app]. constructor.
        - unfold local_entry. cbn [fst snd]. split; [reflexivity|]. split; [now apply nth_local|]. split; [exact T|]. eauto.
        - apply IH; [assumption|lia|]. intros k y Hk. replace (S a - 4 + k) with (a - 4 + S k) by lia. apply H. exact Hk. }
      apply X; [exact F1|lia|]. intros k x Hk. exact Hk.
    - intros q x. rewrite in_flat_map. assert (FA : Forall2 entry (seq 4 (n + h)) (g1 ++ g2)) by (rewrite seq_app; now apply Forall2_app). split.
      + intros [e [He K]]. destruct (Forall2_in_r _ _ _ _ FA He) as [p [Hp [c [C ->]]]]. apply in_seq in Hp. cbn [fst snd] in K.
        destruct (point_image p) as [q' [x' [wr [_ [_ [T [_ [_ [_ TL]]]]]]]]]; [rewrite count_is; lia|].
        assert (Y : (q', x') = (q, x) /\ q' <> r /\ (is_periodic3 wr = true -> periodic = true) /\ existsb (fun f => is_local3 (connection3 f)) (neighbours3 (grid_of c)) = true).
        { rewrite T in K. unfold image_type3, map_ptype3, add_halo3 in K.
          destruct (is_periodic3 wr); destruct (Nat.eqb_spec q' r); destruct periodic; cbn [In] in K; try contradiction;
            destruct (existsb (fun f => is_local3 (connection3 f)) (neighbours3 (grid_of c))); cbn [In] in K; try contradiction; destruct K as [K|K]; try contradiction; auto. }
        destruct Y as [Y1 [Y2 [Y3 Y4]]]. injection Y1 as -> ->. split; [exact Y2|]. exists p, c, wr. split; [exact C|].
        split; [|auto]. assert (~ p < 4 + n) by (intro L; apply TL in L; destruct L; contradiction). lia.
      + intros [Q [p [c [wr [C [Hp [T [Y3 Y4]]]]]]]].
        assert (I : In p (seq 4 (n + h))) by (apply in_seq; lia). destruct (Forall2_in_l _ _ _ _ FA I) as [e [He [c' [C' ->]]]].
        exists (map_ptype3 (type_at p) periodic, grid_of c'). split; [exact He|]. cbn [fst snd].
        assert (Y5 : existsb (fun f => is_local3 (connection3 f)) (neighbours3 (grid_of c')) = true).
        { apply existsb_exists in Y4. destruct Y4 as [f [Hf Y4]]. apply existsb_exists. cbn [neighbours3 grid_of] in *. apply in_map_iff in Hf. destruct Hf as [f0 [<- Hf]].
          destruct (cl3_faces _ _ _ _ _ (proj2 C)) as [qs [_ [QN FC]]]. destruct (cl3_faces _ _ _ _ _ (proj2 C')) as [qs' [_ [QN' FC']]].
          destruct (Forall2_in_r _ _ _ _ FC Hf) as [v [Hv Fv]]. apply QN, QN' in Hv. destruct (Forall2_in_l _ _ _ _ FC' Hv) as [f' [Hf' Fv']].
          exists (VFace3 (map_ptype3 (connection3 f') periodic) (normal3 f') (polygon f')). split; [apply in_map_iff; eauto|]. cbn [connection3] in *.
          rewrite (vf3_type _ _ _ _ _ _ Fv'). rewrite (vf3_type _ _ _ _ _ _ Fv) in Y4. exact Y4. }
        rewrite T. unfold image_type3, map_ptype3, add_halo3. destruct (is_periodic3 wr).
        * rewrite (Y3 eq_refl) in *. destruct (Nat.eqb_spec q r); [contradiction|]. rewrite Y5. now left.
        * destruct (Nat.eqb_spec q r); [contradiction|]. destruct periodic; rewrite Y5; now left.
  Qed.
End Rank.
