(** The Voronoi cells of the points of a triangulation that was constructed from a list of points. *)
From Coq Require Import List Arith Lia QArith Lqa Setoid Bool.
From Verif Require Cyclic_Spec Cyclic_Proofs.
From Verif Require Import Geometry_Model Geometry_Spec Geometry_Proofs Circle2_Proofs Tiling2_Proofs Delaunay_Model Delaunay_Spec
  DelaunayGlobal_Spec DelaunayBuild_Proofs DelaunaySurgery_Proofs Delaunay2_Proofs DelaunayGlobal2_Proofs DelaunayRemap_Model DelaunayRemap_Proofs Voronoi_Model Voronoi_Spec VoronoiRing_Proofs Voronoi_Proofs.
Import ListNotations.
Local Open Scope nat_scope.

Lemma circle_dist_eq t o o' v : ~ (area2 t == 0)%Q -> circumscribed2 t o -> circumscribed2 t o' -> (dist2_2 o v == dist2_2 o' v)%Q.
Proof.
  intros A H K. destruct (circumcenter2_unique t o A H) as [X1 Y1]. destruct (circumcenter2_unique t o' A K) as [X2 Y2].
  unfold dist2_2. rewrite X1, Y1, X2, Y2. reflexivity.
Qed.
Lemma filter_seq_outer n : filter (fun p => negb (p <? 3)) (seq 0 (n + 3)) = seq 3 n.
Proof.
  replace (n + 3) with (3 + n) by lia. rewrite seq_app, filter_app. cbn [seq filter plus Nat.ltb Nat.leb negb app].
  rewrite <- (filter_ext_in (fun _ => true)).
  - generalize (seq 3 n). induction l; cbn; congruence.
  - intros a H. apply in_seq in H. destruct (Nat.leb_spec a 2); [lia|reflexivity].
Qed.

Lemma Forall2_len {A B} (R : A -> B -> Prop) l m : Forall2 R l m -> length l = length m.
Proof. induction 1; cbn; congruence. Qed.
Lemma volume_pos {C} (c : cell C) : volume_of_faces c -> cell_faces c <> [] -> (0 < cell_volume c)%Q.
Proof.
  intros [ws [F V]] N. rewrite V, qsum_fold. destruct F as [|f w fs ws [W _] F]; [contradiction|]. cbn [qsum].
  assert (0 <= qsum ws)%Q by (clear - F; induction F as [|f w fs ws [W _] F IH]; cbn [qsum]; lra). lra.
Qed.

Section Construct.
  Variable C : Type.
  Variable boundary : C.
  Variable ids : nat -> C.
  Variables min max : point2.
  Variable pop : nat -> list nat -> nat.
  Variable l : list point2.
  Variable s : triangulation.
  Hypothesis Hx : (x2 min < x2 max)%Q.
  Hypothesis Hy : (y2 min < y2 max)%Q.
  Hypothesis built : construct2 min max pop l = Some s.

  Let G := construct2_good min max pop l s Hx Hy built.
  Notation cells_of := (construct_voronoi C boundary (table2 min max l) is_corner (own_cells ids) s).
  Notation ptype := (own_types boundary ids).

  Lemma own_count : num_points s = length l + 3.
  Proof. exact (construct2_points min max pop l s built). Qed.
  Lemma own_ok q : q < num_points s -> if q <? 3 then ptype q = boundary else own_cells ids q = Some (ptype q).
  Proof. intros _. unfold own_types, own_cells, is_corner. destruct (q <? 3); reflexivity. Qed.
  Lemma own_ccw i a b c : tri s i a b c -> (0 < orient (table2 min max l a) (table2 min max l b) (table2 min max l c))%Q.
  Proof.
    intro H. pose proof (tt_ccw _ _ (construct2_tiles min max pop l s Hx Hy built) a b c) as X.
    unfold orient. apply X. apply is_triangle_tri. eauto.
  Qed.
  Lemma own_cell p : In p (seq 3 (length l)) -> exists c, new_cell C boundary (table2 min max l) is_corner (own_cells ids) s p = Some c /\
    cell_of (table2 min max l) s ptype p c.
  Proof.
    intro H. apply in_seq in H. apply (new_cell_ok C boundary (remapped_table2 min max l)); auto.
    - rewrite own_count. lia.
    - apply own_ok.
    - apply own_ccw.
  Qed.
  Theorem own_cells_ok : exists cells, cells_of = Some cells /\ Forall2 (cell_of (table2 min max l) s ptype) (seq 3 (length l)) cells.
  Proof.
    unfold construct_voronoi. rewrite own_count. unfold is_corner at 2. rewrite filter_seq_outer. apply map_option_forall. exact own_cell.
  Qed.
  Lemma map_option_nth {A B} (f : A -> option B) : forall m bs k b, map_option f m = Some bs -> nth_error bs k = Some b ->
    exists a, nth_error m k = Some a /\ f a = Some b.
  Proof.
    induction m as [|a m IH]; intros bs k b E H; cbn in E.
    - injection E as <-. destruct k; discriminate.
    - destruct (f a) as [b0|] eqn:E0; [|discriminate]. cbn in E. destruct (map_option f m) as [bs0|]; [|discriminate]. cbn in E. injection E as <-.
      destruct k as [|k]; cbn in *; [injection H as <-; eauto|]. eapply IH; eauto.
  Qed.
  Lemma own_nth cells k c : cells_of = Some cells -> nth_error cells k = Some c ->
    k < length l /\ new_cell C boundary (table2 min max l) is_corner (own_cells ids) s (3 + k) = Some c.
  Proof.
    intros E H. unfold construct_voronoi in E. rewrite own_count in E. unfold is_corner at 2 in E. rewrite filter_seq_outer in E.
    destruct (map_option_nth _ _ _ _ _ E H) as [p [P1 P2]].
    assert (K : k < length l) by (assert (X : nth_error (seq 3 (length l)) k <> None) by congruence; apply nth_error_Some in X; now rewrite seq_length in X).
    split; [exact K|]. rewrite (nth_error_nth' _ 0) in P1 by now rewrite seq_length. rewrite seq_nth in P1 by exact K. now injection P1 as <-.
  Qed.

  Section Square.
    Hypothesis square : (x2 max - x2 min == y2 max - y2 min)%Q.
    Let D := construct2_square min max pop l s Hx Hy built square.

    Lemma own_strict p : 3 <= p < num_points s -> forall i j a b c o, tri s i p a b -> tri s j p b c -> circumscribed2 (shape2 (table2 min max l) p a b) o ->
      (dist2_2 o (table2 min max l p) < dist2_2 o (table2 min max l c))%Q.
    Proof.
      intros P i j a b c o H K CO. destruct (proj2 D p a b) as [o' [CO' E]]; [apply is_triangle_tri; eauto|].
      assert (A : ~ (area2 (shape2 (table2 min max l) p a b) == 0)%Q) by (pose proof (own_ccw _ _ _ _ H) as X; unfold orient in X; unfold shape2; intro Z; rewrite Z in X; lra).
      rewrite !(circle_dist_eq _ o o' _ A CO CO'). destruct (tri_distinct _ _ G _ _ _ _ K) as [N1 [N2 N3]].
      apply E; auto.
      - pose proof (tl_lt _ _ _ (gd_tiling _ _ G) _ _ _ _ (tri_rot _ _ _ _ _ (tri_rot _ _ _ _ _ K))). lia.
      - intros ->. exact (tri_turned _ s p G _ _ _ _ _ _ H K (conj eq_refl eq_refl)).
    Qed.
    Lemma own_free p : 3 <= p < num_points s -> forall a b o r, is_triangle s p a b -> circumscribed2 (shape2 (table2 min max l) p a b) o ->
      (exists q, q < num_points s /\ table2 min max l q = r) -> (dist2_2 o (table2 min max l p) <= dist2_2 o r)%Q.
    Proof.
      intros P a b o r H CO [q [Q <-]]. destruct (proj2 D p a b H) as [o' [CO' E]].
      assert (A : ~ (area2 (shape2 (table2 min max l) p a b) == 0)%Q) by (apply is_triangle_tri in H; destruct H as [i H]; pose proof (own_ccw _ _ _ _ H) as X; unfold orient in X; unfold shape2; intro Z; rewrite Z in X; lra).
      destruct CO as [C1 C2]. cbn [shape2 t2p1 t2p2 t2p3] in C1, C2.
      destruct (Nat.eq_dec q p) as [->|N1]; [lra|]. destruct (Nat.eq_dec q a) as [->|N2]; [lra|]. destruct (Nat.eq_dec q b) as [->|N3]; [lra|].
      rewrite !(circle_dist_eq _ o o' _ A (conj C1 C2) CO'). apply Qlt_le_weak. now apply E.
    Qed.
    Lemma own_near p : forall q, neighbour s p q -> exists q', q' < num_points s /\ table2 min max l q' = table2 min max l q.
    Proof.
      intros q [_ [i [t [H [_ Hq]]]]]. exists q. split; [|reflexivity].
      exact (proj2 (proj2 (iv_corners _ _ _ (gd_inv _ _ G) _ _ H)) q Hq).
    Qed.
    Theorem own_contains cells k c x : cells_of = Some cells -> nth_error cells k = Some c ->
      cell_contains c x = true <-> nearest (table2 min max l) (length l + 3) (3 + k) x.
    Proof.
      intros E H. destruct (own_nth _ _ _ E H) as [K N]. assert (P : 3 <= 3 + k < num_points s) by (rewrite own_count; lia).
      rewrite (contains_ok C boundary (remapped_table2 min max l) (table2 min max l) is_corner (own_cells ids) ptype s (3 + k) G P (fun _ _ => eq_refl) own_ok own_ccw
        (fun r => exists q, q < num_points s /\ table2 min max l q = r) (own_free _ P) (own_strict _ P) (own_near _) c N x).
      unfold nearest. rewrite own_count. split; [intros A q Q; apply A; eauto|]. intros A r [q [Q <-]]. now apply A.
    Qed.
    Theorem own_volume cells k c : cells_of = Some cells -> nth_error cells k = Some c -> volume_of_faces c.
    Proof.
      intros E H. destruct (own_nth _ _ _ E H) as [K N]. assert (P : 3 <= 3 + k < num_points s) by (rewrite own_count; lia).
      exact (volume_ok C boundary (remapped_table2 min max l) (table2 min max l) is_corner (own_cells ids) ptype s (3 + k) G P (fun _ _ => eq_refl) own_ok own_ccw
        (own_strict _ P) c N).
    Qed.
    Theorem own_volume_pos cells k c : cells_of = Some cells -> nth_error cells k = Some c ->
      volume_of_faces c /\ 3 <= length (cell_faces c) /\ (0 < cell_volume c)%Q.
    Proof.
      intros E H. pose proof (own_volume _ _ _ E H) as V. split; [exact V|]. destruct (own_nth _ _ _ E H) as [K N].
      assert (P : 3 <= 3 + k < num_points s) by (rewrite own_count; lia).
      destruct (new_cell_run C boundary (remapped_table2 min max l) (table2 min max l) is_corner (own_cells ids) ptype s (3 + k) G P (fun _ _ => eq_refl) own_ok own_ccw)
        as [ring [c' [qs [PE [L3 [OR [E0 [_ [_ [_ [_ [E5 [_ [_ FF]]]]]]]]]]]]]].
      rewrite N in E0. injection E0 as <-. assert (L : 3 <= length (cell_faces c)).
      { rewrite <- (Forall2_len _ _ _ FF). destruct (Cyclic_Proofs.around_once ring) as [A _]. rewrite <- (map_length fst), A. exact L3. }
      split; [exact L|]. apply volume_pos; [exact V|]. destruct (cell_faces c); [cbn in L; lia|discriminate].
    Qed.
  End Square.
  Theorem own_mutual cells j k c d : cells_of = Some cells -> nth_error cells j = Some c -> nth_error cells k = Some d ->
    neighbour s (3 + j) (3 + k) -> mutual_faces (table2 min max l) s ptype (3 + j) (3 + k) c d.
  Proof.
    intros E H1 H2. destruct own_cells_ok as [cells' [E' F]]. rewrite E in E'. injection E' as <-.
    assert (X : forall k c, nth_error cells k = Some c -> cell_of (table2 min max l) s ptype (3 + k) c).
    { intros k0 c0 H0. destruct (own_nth _ _ _ E H0) as [K N]. destruct (own_cell (3 + k0)) as [c1 [N1 O1]]; [apply in_seq; lia|]. rewrite N in N1. now injection N1 as ->. }
    apply faces_mutual; auto.
  Qed.
End Construct.

