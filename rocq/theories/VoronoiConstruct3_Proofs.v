(** The Voronoi cells of the points of a triangulation of space that was constructed from a list of points. *)
From Coq Require Import List Arith Lia QArith Lqa Setoid Bool Reals.
From Verif Require Cyclic_Spec Cyclic_Proofs.
From Verif Require Import Geometry_Model Geometry_Spec Geometry_Proofs GeometrySolve_Proofs Delaunay_Model Delaunay_Spec DelaunayGlobal3_Spec DelaunayBuild_Proofs
  DelaunaySurgery_Proofs Delaunay3_Proofs Sphere3_Proofs Tiling3_Proofs DelaunayLink3_Proofs DelaunayGlobal3_Proofs DelaunayUnique3_Proofs DelaunayRemap3_Model DelaunayRemap3_Proofs
  Voronoi_Model Voronoi_Spec Voronoi3_Model Voronoi3_Spec VoronoiRing_Proofs Voronoi_Proofs VoronoiConstruct_Proofs VoronoiRing3_Proofs Voronoi3_Proofs.
Import ListNotations.
Local Open Scope nat_scope.

Lemma sphere_dist_eq t o o' v : ~ (volume6 t == 0)%Q -> circumscribed3 t o -> circumscribed3 t o' -> (dist2_3 o v == dist2_3 o' v)%Q.
Proof.
  intros A H K. destruct (circumcenter3_unique t o A H) as [X1 [Y1 Z1]]. destruct (circumcenter3_unique t o' A K) as [X2 [Y2 Z2]].
  unfold dist2_3. rewrite X1, Y1, Z1, X2, Y2, Z2. reflexivity.
Qed.
Lemma filter_seq_outer3 n : filter (fun p => negb (p <? 4)) (seq 0 (n + 4)) = seq 4 n.
Proof.
  replace (n + 4) with (4 + n) by lia. rewrite seq_app, filter_app. cbn [seq filter plus Nat.ltb Nat.leb negb app].
  rewrite <- (filter_ext_in (fun _ => true)).
  - generalize (seq 4 n). induction l; cbn; congruence.
  - intros a H. apply in_seq in H. destruct (Nat.leb_spec a 3); [lia|reflexivity].
Qed.

(** ** The tetrahedra around a line are the same from both sides *)
Lemma filter_once p l : NoDup l -> filter (Nat.eqb p) l = if existsb (Nat.eqb p) l then [p] else [].
Proof.
  induction 1 as [|a l N H IH]; [reflexivity|]. cbn. destruct (Nat.eqb_spec p a) as [->|NE]; cbn; [|exact IH]. f_equal.
  rewrite IH. destruct (existsb (Nat.eqb a) l) eqn:E; [exfalso|reflexivity]. apply existsb_exists in E. destruct E as [x [X1 X2]]. apply Nat.eqb_eq in X2. now subst.
Qed.
Lemma with_both s p q : (forall i t, In (i, t) (tetras s) -> NoDup (points_of t)) ->
  tetras_with_both s p q = filter (fun e => existsb (Nat.eqb p) (points_of (snd e)) && existsb (Nat.eqb q) (points_of (snd e))) (tetras s).
Proof.
  unfold tetras_with_both, point_to_tetras. generalize (tetras s). intro l. induction l as [|[i t] l IH]; intro H; [reflexivity|].
  cbn [flat_map]. rewrite filter_app, IH by (intros; eapply H; right; eauto). cbn [snd].
  rewrite (filter_once p (points_of t)) by (eapply H; left; reflexivity). cbn [filter snd].
  destruct (existsb (Nat.eqb p) (points_of t)); cbn [map filter snd app andb]; [|reflexivity]. destruct (existsb (Nat.eqb q) (points_of t)); reflexivity.
Qed.
Lemma with_both_sym s p q : (forall i t, In (i, t) (tetras s) -> NoDup (points_of t)) -> tetras_with_both s p q = tetras_with_both s q p.
Proof. intro H. rewrite !with_both by exact H. apply filter_ext. intro e. apply andb_comm. Qed.

Section Construct.
  Variable C : Type.
  Variable boundary : C.
  Variable ids : nat -> C.
  Variable hash_set : list nat -> list nat.
  Variables min max : point3.
  Variable pop : nat -> list nat -> nat.
  Variable l : list point3.
  Variable s : triangulation.
  Hypothesis hash : iterates_set hash_set.
  Hypothesis Hx : (x3 min < x3 max)%Q.
  Hypothesis Hy : (y3 min < y3 max)%Q.
  Hypothesis Hz : (z3 min < z3 max)%Q.
  Hypothesis built : construct3 min max pop l = Some s.

  Let G := construct3_good min max pop l s Hx Hy Hz built.
  Let I := g3_inv _ _ G.
  Let L := g3_tiling _ _ G.
  Notation pts := (table3 min max l).
  Notation cell_at := (new_cell3 C boundary pts is_corner3 (own_cells3 ids) hash_set s).
  Notation cells_of := (construct_voronoi3 C boundary pts is_corner3 (own_cells3 ids) hash_set s).
  Notation ptype := (own_types3 boundary ids).

  Lemma own_count3 : num_points s = length l + 4.
  Proof. exact (construct3_points min max pop l s built). Qed.
  Lemma own_ok3 q : q < num_points s -> if q <? 4 then ptype q = boundary else own_cells3 ids q = Some (ptype q).
  Proof. intros _. unfold own_types3, own_cells3, is_corner3. destruct (q <? 4); reflexivity. Qed.
  Lemma own_ccw3 i a b c d : tet s i a b c d -> (0 < orient3 (pts a) (pts b) (pts c) (pts d))%Q.
  Proof. intro H. exact (proj1 (remapped3_pos min max l Hx Hy Hz a b c d) (t3_pos _ _ _ L _ _ _ _ _ H)). Qed.
  Lemma own_cell3 p : In p (seq 4 (length l)) -> exists c, cell_at p = Some c /\ cell_of3 pts s ptype p c.
  Proof.
    intro H. apply in_seq in H. apply (new_cell_ok3 C boundary (remapped_table3 min max l)); auto.
    - rewrite own_count3. lia.
    - exact own_ok3.
    - exact own_ccw3.
  Qed.
  Theorem own_cells_ok3 : exists cells, cells_of = Some cells /\ Forall2 (cell_of3 pts s ptype) (seq 4 (length l)) cells.
  Proof.
    unfold construct_voronoi3. rewrite own_count3. unfold is_corner3 at 2. rewrite filter_seq_outer3. apply map_option_forall. exact own_cell3.
  Qed.
  Lemma own_nth3 cells k c : cells_of = Some cells -> nth_error cells k = Some c -> k < length l /\ cell_at (4 + k) = Some c.
  Proof.
    intros E H. unfold construct_voronoi3 in E. rewrite own_count3 in E. unfold is_corner3 at 2 in E. rewrite filter_seq_outer3 in E.
    destruct (map_option_nth _ _ _ _ _ E H) as [p [P1 P2]].
    assert (K : k < length l) by (assert (X : nth_error (seq 4 (length l)) k <> None) by congruence; apply nth_error_Some in X; now rewrite seq_length in X).
    split; [exact K|]. rewrite (nth_error_nth' _ 0) in P1 by now rewrite seq_length. rewrite seq_nth in P1 by exact K. now injection P1 as <-.
  Qed.
  Lemma own_corners_once i t : In (i, t) (tetras s) -> NoDup (points_of t).
  Proof. intro H. exact (proj1 (proj2 (iv_corners _ _ _ I i t H))). Qed.

  Section Cube.
    Hypothesis cube1 : (x3 max - x3 min == y3 max - y3 min)%Q.
    Hypothesis cube2 : (x3 max - x3 min == z3 max - z3 min)%Q.
    Let D := construct3_cube min max pop l s Hx Hy Hz built cube1 cube2.

    Lemma own_volume_nz a b c d : is_tetra s a b c d -> ~ (volume6 (shape3 pts a b c d) == 0)%Q.
    Proof.
      intros H Z. apply (is_tetra_tet s a b c d I) in H. destruct H as [i [H|H]]; apply own_ccw3 in H; unfold orient3 in H; unfold shape3 in Z; [lra|].
      pose proof (o3_swap (pts a) (pts b) (pts c) (pts d)) as S0. unfold orient3 in S0. lra.
    Qed.
    Lemma own_strict3 p : forall q i j a b c o, tet s i p q a b -> tet s j p q b c ->
      circumscribed3 (shape3 pts p q a b) o -> (dist2_3 o (pts p) < dist2_3 o (pts c))%Q.
    Proof.
      intros q i j a b c o H K CO. assert (IT : is_tetra s p q a b) by (apply (is_tetra_tet s p q a b I); eauto). destruct (proj2 D p q a b IT) as [o' [CO' E]].
      rewrite !(sphere_dist_eq _ o o' _ (own_volume_nz _ _ _ _ IT) CO CO'). destruct (tet_nodup _ _ _ _ _ _ I K) as [N1 [N2 [N3 [N4 [N5 N6]]]]].
      destruct (t3_lts _ _ _ L _ _ _ _ _ K) as [_ [_ [_ LC]]].
      apply E; auto. intros ->. pose proof (own_ccw3 _ _ _ _ _ H) as X. pose proof (own_ccw3 _ _ _ _ _ K) as Y. rewrite o3_last in Y. lra.
    Qed.
    Lemma own_free3 p : forall a b d o r, is_tetra s p a b d -> circumscribed3 (shape3 pts p a b d) o ->
      (exists q, q < num_points s /\ pts q = r) -> (dist2_3 o (pts p) <= dist2_3 o r)%Q.
    Proof.
      intros a b d o r H CO [q [Q <-]]. destruct (proj2 D p a b d H) as [o' [CO' E]]. pose proof (own_volume_nz _ _ _ _ H) as A.
      pose proof CO as [C1 [C2 C3]]. cbn [shape3 ttp1 ttp2 ttp3 ttp4] in C1, C2, C3.
      destruct (Nat.eq_dec q p) as [->|N1]; [lra|]. destruct (Nat.eq_dec q a) as [->|N2]; [lra|]. destruct (Nat.eq_dec q b) as [->|N3]; [lra|].
      destruct (Nat.eq_dec q d) as [->|N4]; [lra|].
      rewrite !(sphere_dist_eq _ o o' _ A CO CO'). apply Qlt_le_weak. now apply E.
    Qed.
    Lemma own_near3 p : forall q, neighbour s p q -> exists q', q' < num_points s /\ pts q' = pts q.
    Proof.
      intros q [_ [i [t [H [_ Hq]]]]]. exists q. split; [|reflexivity]. exact (proj2 (proj2 (iv_corners _ _ _ I _ _ H)) q Hq).
    Qed.
    Lemma own_apart3 p q : 4 <= p < num_points s -> q < num_points s -> q <> p -> (0 < dist2_3 (pts q) (pts p))%Q.
    Proof.
      intros P Q N. destruct (Qlt_le_dec 0 (dist2_3 (pts q) (pts p))) as [K|K]; [exact K|exfalso]. pose proof (dist3_nonneg (pts q) (pts p)) as NN.
      assert (Z : (dist2_3 (pts q) (pts p) == 0)%Q) by lra. apply dist3_zero in Z. destruct Z as [Z1 [Z2 Z3]].
      destruct (remapped3 min max l Hx Hy Hz) as [emin [emax [E _]]].
      destruct (star_cone3' (remapped_table3 min max l) s p G P (P3 0 0 0)) as [i [a [b [c [T _]]]]].
      pose proof (t3_pos _ _ _ L _ _ _ _ _ T) as P0. destruct (corner_cls3 _ _ _ _ P0) as [CP _].
      assert (CQ : cls3 (remapped_table3 min max l p) (remapped_table3 min max l a) (remapped_table3 min max l b) (remapped_table3 min max l c) (remapped_table3 min max l q)).
      { rewrite (E q). rewrite (E p) in CP at 2. destruct CP as [A1 [A2 [A3 A4]]].
        assert (EQ : forall x y z, (orient3 x y z (remap3 emin emax (pts q)) == orient3 x y z (remap3 emin emax (pts p)))%Q).
        { intros. unfold orient3, volume6, triple, remap3. cbn [ttp1 ttp2 ttp3 ttp4 x3 y3 z3]. rewrite Z1, Z2, Z3. reflexivity. }
        unfold cls3. rewrite !EQ. auto. }
      destruct (t3_corner _ _ _ L _ _ _ _ _ _ T Q CQ) as [X|X]; [congruence|].
      assert (OO : forall x y, (orient3 (pts p) (pts q) x y == 0)%Q) by (intros; unfold orient3, volume6, triple; cbn [ttp1 ttp2 ttp3 ttp4]; rewrite Z1, Z2, Z3; ring).
      pose proof (own_ccw3 _ _ _ _ _ T) as PP. destruct X as [X|[X|X]]; subst q.
      - rewrite OO in PP. lra.
      - pose proof (OO (pts c) (pts a)) as Y. assert (W : (orient3 (pts p) (pts a) (pts b) (pts c) == orient3 (pts p) (pts b) (pts c) (pts a))%Q).
        { generalize (pts p) (pts a) (pts b) (pts c). clear. intros x y z w. coords3. ring. } lra.
      - pose proof (OO (pts a) (pts b)) as Y. assert (W : (orient3 (pts p) (pts a) (pts b) (pts c) == orient3 (pts p) (pts c) (pts a) (pts b))%Q).
        { generalize (pts p) (pts a) (pts b) (pts c). clear. intros x y z w. coords3. ring. } lra.
    Qed.
    Theorem own_contains3 cells k c x : cells_of = Some cells -> nth_error cells k = Some c ->
      cell_contains3 c x = true <-> strictly_nearest pts (length l + 4) (4 + k) x.
    Proof.
      intros E H. destruct (own_nth3 _ _ _ E H) as [K N]. assert (P : 4 <= 4 + k < num_points s) by (rewrite own_count3; lia).
      destruct (remapped3 min max l Hx Hy Hz) as [emin [emax [EM [A1 [A2 [A3 _]]]]]].
      rewrite (contains_ok3 C boundary (remapped_table3 min max l) pts is_corner3 (own_cells3 ids) hash_set ptype s (4 + k) G P (fun _ _ => eq_refl) own_ok3 hash own_ccw3
        (remap3 emin emax) _ (remap3_pos emin emax A1 A2 A3) (remap3_orient emin emax A1 A2 A3) (fun v _ => EM v)
        (fun r => exists q, q < num_points s /\ pts q = r) (own_free3 _) (own_near3 _) c N x).
      unfold strictly_nearest. rewrite own_count3. split.
      - intros A q Q NE. apply A; [eauto|]. apply own_apart3; auto. now rewrite own_count3.
      - intros A r [q [Q <-]] PO. apply A; [exact Q|]. intros ->. assert (Z : (dist2_3 (pts (4 + k)) (pts (4 + k)) == 0)%Q) by (unfold dist2_3; ring). lra.
    Qed.
    Theorem own_volume3 cells k c : cells_of = Some cells -> nth_error cells k = Some c ->
      volume_of_cell c /\ 4 <= length (cell_faces3 c) /\ forall f, In f (cell_faces3 c) -> proper_face f.
    Proof.
      intros E H. destruct (own_nth3 _ _ _ E H) as [K N]. assert (P : 4 <= 4 + k < num_points s) by (rewrite own_count3; lia).
      destruct (remapped3 min max l Hx Hy Hz) as [emin [emax [EM [A1 [A2 [A3 _]]]]]].
      exact (volume_ok3 C boundary (remapped_table3 min max l) pts is_corner3 (own_cells3 ids) hash_set ptype s (4 + k) G P (fun _ _ => eq_refl) own_ok3 hash own_ccw3
        (remap3 emin emax) _ (remap3_pos emin emax A1 A2 A3) (remap3_orient emin emax A1 A2 A3) (fun v _ => EM v)
        (fun r => exists q, q < num_points s /\ pts q = r) (own_free3 _) (own_strict3 _) (own_near3 _) c N).
    Qed.
  End Cube.
  Lemma own_face3 p c q : 4 <= p < num_points s -> cell_at p = Some c -> neighbour s p q -> exists f, In f (cell_faces3 c) /\ is_face3 pts s ptype p q f /\
    face_perpendicular C boundary pts is_corner3 (own_cells3 ids) s p q = Some f.
  Proof.
    intros P N NB.
    destruct (new_cell_run3 C boundary (remapped_table3 min max l) pts is_corner3 (own_cells3 ids) hash_set ptype s p G P (fun _ _ => eq_refl) own_ok3 hash own_ccw3)
      as [c' [qs [E [_ [_ [_ [_ [_ [_ [N2 FF]]]]]]]]]]. rewrite N in E. injection E as <-.
    destruct (Forall2_in_l _ _ _ q FF) as [f [F1 [F2 [F3 _]]]]; [now apply N2|]. eauto.
  Qed.
  Theorem own_mutual3 cells j k c d : cells_of = Some cells -> nth_error cells j = Some c -> nth_error cells k = Some d ->
    neighbour s (4 + j) (4 + k) -> mutual_faces3 pts s ptype (4 + j) (4 + k) c d.
  Proof.
    intros E H1 H2 NB. destruct (own_nth3 _ _ _ E H1) as [J N1]. destruct (own_nth3 _ _ _ E H2) as [K N2].
    assert (P1 : 4 <= 4 + j < num_points s) by (rewrite own_count3; lia). assert (P2 : 4 <= 4 + k < num_points s) by (rewrite own_count3; lia).
    destruct (own_face3 _ c _ P1 N1 NB) as [f [F1 [F2 F3]]]. destruct (own_face3 _ d _ P2 N2 (neighbour_sym _ _ _ NB)) as [g [G1 [G2 G3]]].
    exists f, g. split; [exact F1|]. split; [exact G1|]. split; [exact F2|]. split; [exact G2|]. split.
    - unfold face_area. f_equal. unfold face_perpendicular in F3, G3. rewrite (with_both_sym s (4 + k) (4 + j) own_corners_once) in G3.
      destruct (arranged tetras_are_neighbours (tetras_with_both s (4 + j) (4 + k))) as [pairs|]; [|discriminate]. cbn [bind] in F3, G3.
      destruct (get_particle_type C boundary is_corner3 (own_cells3 ids) (4 + k)); [|discriminate]. destruct (get_particle_type C boundary is_corner3 (own_cells3 ids) (4 + j)); [|discriminate].
      cbn [bind] in F3, G3. destruct (hd_error _); [|discriminate]. cbn [bind] in F3, G3. injection F3 as <-. injection G3 as <-. reflexivity.
    - destruct F2 as [_ -> _]. destruct G2 as [_ -> _]. cbn. repeat split; ring.
  Qed.
End Construct.
