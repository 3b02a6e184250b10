(** The cells of a rank are the cells of the triangulation of all images. *)
From Coq Require Import List Arith QArith Lqa Lia Permutation Setoid Bool.
From Verif Require Geometry_Model.
From Verif Require Import Geometry_Spec Box_Model Box_Spec Tree_Model Circle2_Proofs Tiling2_Proofs Delaunay_Model Delaunay_Spec DelaunayGeo_Model
  DelaunayGlobal_Spec DelaunayBuild_Proofs DelaunaySurgery_Proofs Delaunay2_Proofs Halo_Model Halo_Spec HaloGeo_Model HaloGeo_Spec HaloDelaunay_Spec DelaunayRemap_Model HaloDelaunay_Model DelaunayRemap_Proofs
  DelaunayInsert_Proofs Delaunay2Insert_Proofs DelaunayGlobal2_Proofs DelaunayUnique2_Proofs Halo_Proofs HaloGeo_Proofs HaloFinal_Proofs
  HaloDelaunay_Proofs Voronoi_Model Voronoi_Spec VoronoiRing_Proofs Voronoi_Proofs VoronoiConstruct_Proofs VoronoiGrid_Model VoronoiGrid_Spec VoronoiGrid_Proofs.
Import ListNotations.
Local Open Scope nat_scope.

Definition at_pos (pos : list vec2) (v : nat) : Geometry_Model.point2 := to_point2 (nth v pos (V2 0 0)).

(** No two points of a triangulation are at the same position. *)
Lemma good_apart pts s i a b c u : good pts s -> tri s i a b c -> u < num_points s -> same_point (pts u) (pts a) -> u = a.
Proof.
  intros G H Hu E. pose proof (gd_tiling _ _ G) as L. pose proof (tl_pos _ _ _ L _ _ _ _ H) as P0.
  destruct (Nat.eq_dec u a) as [|N1]; [assumption|exfalso].
  destruct (Nat.eq_dec u b) as [->|N2]; [rewrite E in P0; destruct (orient_same (pts a) (pts c)) as [X1 [X2 X3]]; lra|].
  destruct (Nat.eq_dec u c) as [->|N3]; [rewrite E in P0; destruct (orient_same (pts a) (pts b)) as [X1 [X2 X3]]; lra|].
  destruct (circ_exists _ _ _ P0) as [o [k C]]. pose proof (good_empty _ _ G i a b c o k u H C Hu N1 N2 N3) as X.
  rewrite E in X. destruct C as [C _]. lra.
Qed.
Lemma neighbour_tri pts s p q : good pts s -> (neighbour s p q <-> exists a, is_triangle s p q a \/ is_triangle s p a q).
Proof.
  intro G. split.
  - intros [N [i [t [H [Hp Hq]]]]]. destruct (three_entries s i t (gd_inv _ _ G) H) as [a [fa [b [fb [c [fc ->]]]]]]. cbn in Hp, Hq.
    assert (T : is_triangle s a b c) by (exists i, [(a, fa); (b, fb); (c, fc)]; split; [exact H|left; reflexivity]).
    pose proof (is_triangle_rot _ _ _ _ T) as T2. pose proof (is_triangle_rot _ _ _ _ T2) as T3.
    destruct Hp as [<-|[<-|[<-|[]]]]; destruct Hq as [<-|[<-|[<-|[]]]]; try contradiction; eauto.
  - intros [a [H|H]]; apply is_triangle_tri in H; destruct H as [i H]; pose proof (tri_distinct _ _ G _ _ _ _ H) as [N1 [N2 N3]]; destruct H as [t [H R]];
      (split; [auto|]); exists i, t; split; try exact H; destruct R as [R|[R|R]]; rewrite R; cbn; auto.
Qed.

(** ** Cells in two triangulations with the same triangles around a point *)
Section Transfer.
  Variables (pos pos' : list vec2) (s s' : triangulation) (p p' : nat) (pts pts' : nat -> Geometry_Model.point2).
  Hypothesis G : good pts s.
  Hypothesis G' : good pts' s'.
  Hypothesis apart : forall u v x y, nth_error pos u = Some x -> nth_error pos v = Some y -> same_position x y -> (exists a b, is_triangle s u a b) -> v = u.
  Hypothesis apart' : forall u v x y, nth_error pos' u = Some x -> nth_error pos' v = Some y -> same_position x y -> (exists a b, is_triangle s' u a b) -> v = u.
  Definition same_at (v v' : nat) : Prop := exists x x', nth_error pos v = Some x /\ nth_error pos' v' = Some x' /\ same_position x x'.
  Hypothesis EP : same_at p p'.
  Hypothesis SA : same_triangles_around pos s p pos' s' p'.
  Lemma same_points v v' : same_at v v' -> same_point (at_pos pos v) (at_pos pos' v').
  Proof.
    intros [x [x' [E1 [E2 [E3 E4]]]]]. unfold at_pos. rewrite (nth_error_nth _ _ _ E1), (nth_error_nth _ _ _ E2). split; assumption.
  Qed.
  Lemma same_inj q1 q2 q' : same_at q1 q' -> same_at q2 q' -> (exists a b, is_triangle s q1 a b) -> q2 = q1.
  Proof.
    intros [x [x' [A1 [A2 A3]]]] [y [y' [B1 [B2 B3]]]] T. rewrite A2 in B2. injection B2 as <-. apply (apart q1 q2 x y A1 B1); [|exact T].
    eapply same_position_trans; [exact A3|]. now apply same_position_sym.
  Qed.
  Lemma same_inj' q q1' q2' : same_at q q1' -> same_at q q2' -> (exists a b, is_triangle s' q1' a b) -> q2' = q1'.
  Proof.
    intros [x [x' [A1 [A2 A3]]]] [y [y' [B1 [B2 B3]]]] T. rewrite A1 in B1. injection B1 as <-. apply (apart' q1' q2' x' y' A2 B2); [|exact T].
    eapply same_position_trans; [apply same_position_sym; exact A3|]. exact B3.
  Qed.
  Lemma nb_fwd q : neighbour s p q -> exists q', neighbour s' p' q' /\ same_at q q'.
  Proof.
    intro H. apply (neighbour_tri _ _ _ _ G) in H. destruct H as [a [H|H]]; destruct (proj1 SA _ _ H) as [b' [c' [T [E1 E2]]]].
    - exists b'. split; [apply (neighbour_tri _ _ _ _ G'); eauto|exact E1].
    - exists c'. split; [apply (neighbour_tri _ _ _ _ G'); eauto|exact E2].
  Qed.
  Lemma nb_bwd q' : neighbour s' p' q' -> exists q, neighbour s p q /\ same_at q q'.
  Proof.
    intro H. apply (neighbour_tri _ _ _ _ G') in H. destruct H as [a [H|H]]; destruct (proj2 SA _ _ H) as [b [c [T [E1 E2]]]].
    - exists b. split; [apply (neighbour_tri _ _ _ _ G); eauto|exact E1].
    - exists c. split; [apply (neighbour_tri _ _ _ _ G); eauto|exact E2].
  Qed.
  Lemma nb_tri q : neighbour s p q -> exists a b, is_triangle s q a b.
  Proof.
    intro H. apply (neighbour_tri _ _ _ _ G) in H. destruct H as [a [H|H]].
    - exists a, p. now apply is_triangle_rot.
    - exists p, a. now do 2 apply is_triangle_rot.
  Qed.
  Lemma nb_tri' q : neighbour s' p' q -> exists a b, is_triangle s' q a b.
  Proof.
    intro H. apply (neighbour_tri _ _ _ _ G') in H. destruct H as [a [H|H]].
    - exists a, p'. now apply is_triangle_rot.
    - exists p', a. now do 2 apply is_triangle_rot.
  Qed.
  Lemma circum_same a b c a' b' c' o : same_point a a' -> same_point b b' -> same_point c c' -> circumscribed2 (Geometry_Model.T2 a b c) o ->
    circumscribed2 (Geometry_Model.T2 a' b' c') o.
  Proof.
    intros [A1 A2] [B1 B2] [C1 C2] [H1 H2]. unfold circumscribed2, dist2_2 in *. cbn [Geometry_Model.t2p1 Geometry_Model.t2p2 Geometry_Model.t2p3] in *.
    rewrite <- A1, <- A2, <- B1, <- B2, <- C1, <- C2. auto.
  Qed.
  Lemma centers_bwd q q' o1 o2 : neighbour s p q -> same_at q q' -> edge_centers (at_pos pos') s' p' q' o1 o2 -> edge_centers (at_pos pos) s p q o1 o2.
  Proof.
    intros N E [[a' [T1 C1]] [b' [T2 C2]]]. destruct (proj2 SA _ _ T1) as [q1 [a [T3 [E1 E2]]]].
    assert (q1 = q) by (apply (same_inj q q1 q' E E1); now apply nb_tri). subst q1.
    destruct (proj2 SA _ _ (is_triangle_rot _ _ _ _ T2)) as [b [q2 [T4 [E3 E4]]]].
    assert (q2 = q) by (apply (same_inj q q2 q' E E4); now apply nb_tri). subst q2.
    pose proof (same_points _ _ EP) as SP. pose proof (same_points _ _ E) as SQ. pose proof (same_points _ _ E2) as Sa. pose proof (same_points _ _ E3) as Sb.
    split; [exists a|exists b]; (split; [try exact T3; now do 2 apply is_triangle_rot|]).
    - revert C1. apply circum_same; symmetry; assumption.
    - revert C2. apply circum_same; symmetry; assumption.
  Qed.
  Lemma centers_fwd q q' o1 o2 : neighbour s p q -> neighbour s' p' q' -> same_at q q' -> edge_centers (at_pos pos) s p q o1 o2 -> edge_centers (at_pos pos') s' p' q' o1 o2.
  Proof.
    intros N N' E [[a [T1 C1]] [b [T2 C2]]]. destruct (proj1 SA _ _ T1) as [q1 [a' [T3 [E1 E2]]]].
    assert (q1 = q') by (apply (same_inj' q q' q1 E E1); now apply nb_tri'). subst q1.
    destruct (proj1 SA _ _ (is_triangle_rot _ _ _ _ T2)) as [b' [q2 [T4 [E3 E4]]]].
    assert (q2 = q') by (apply (same_inj' q q' q2 E E4); now apply nb_tri'). subst q2.
    pose proof (same_points _ _ EP) as SP. pose proof (same_points _ _ E) as SQ. pose proof (same_points _ _ E2) as Sa. pose proof (same_points _ _ E3) as Sb.
    split; [exists a'|exists b']; (split; [try exact T3; now do 2 apply is_triangle_rot|]).
    - revert C1. apply circum_same; assumption.
    - revert C2. apply circum_same; assumption.
  Qed.
  Lemma face_same {C} (ptype : nat -> C) q q' f : neighbour s p q -> neighbour s' p' q' -> same_at q q' -> is_face (at_pos pos) s ptype p q f ->
    is_face (at_pos pos') s' (fun _ => ptype q) p' q' f.
  Proof.
    intros N N' E [f1 [f2 f3] [o1 [o2 f4]] f5]. destruct (same_points _ _ EP) as [S1 S2]. destruct (same_points _ _ E) as [S3 S4]. constructor.
    - exact f1.
    - rewrite f2, f3, S1, S2, S3, S4. split; reflexivity.
    - exists o1, o2. now apply (centers_fwd q).
    - intros o3 o4 H. apply f5. now apply (centers_bwd q q').
  Qed.
  Theorem faces_same {C} (ptype : nat -> C) qs fs : NoDup qs -> (forall q, In q qs <-> neighbour s p q) -> Forall2 (is_face (at_pos pos) s ptype p) qs fs ->
    exists qs', NoDup qs' /\ (forall q', In q' qs' <-> neighbour s' p' q') /\
      Forall2 (fun q' f => exists q, neighbour s p q /\ neighbour s' p' q' /\ same_at q q' /\ is_face (at_pos pos') s' (fun _ => ptype q) p' q' f) qs' fs.
  Proof.
    intros ND QN FA.
    assert (X : exists qs', Forall2 (fun q q' => neighbour s p q /\ neighbour s' p' q' /\ same_at q q') qs qs' /\
      Forall2 (fun q' f => exists q, neighbour s p q /\ neighbour s' p' q' /\ same_at q q' /\ is_face (at_pos pos') s' (fun _ => ptype q) p' q' f) qs' fs).
    { assert (QN' : forall q, In q qs -> neighbour s p q) by (intros q Hq; now apply QN). clear ND QN. induction FA as [|q f qs fs H FA IH].
      - exists []. split; constructor.
      - destruct IH as [qs' [A B]]; [intros; apply QN'; now right|]. pose proof (QN' q (or_introl eq_refl)) as N.
        destruct (nb_fwd q N) as [q' [N' E]]. exists (q' :: qs'). split; constructor; auto. exists q. split; [exact N|]. split; [exact N'|]. split; [exact E|]. now apply (face_same ptype q q' f). }
    destruct X as [qs' [A B]]. exists qs'. split; [|split; [|exact B]].
    - apply (Forall2_NoDup _ _ _ A ND). intros x y z Hx Hy [N1 [_ E1]] [N2 [_ E2]]. symmetry. apply (same_inj x y z E1 E2). now apply nb_tri.
    - intro q'. split.
      + intro H. destruct (Forall2_in_r _ _ _ _ A H) as [q [_ [_ [N' _]]]]. exact N'.
      + intro H. destruct (nb_bwd q' H) as [q [N E]]. apply QN in N. destruct (Forall2_in_l _ _ _ _ A N) as [q2 [H2 [N2 [N2' E2]]]].
        replace q' with q2; [exact H2|]. apply (same_inj' q q' q2 E E2). now apply nb_tri'.
  Qed.
End Transfer.

(** ** The box *)
Section Box.
  Variable box : extent2.
  Hypothesis proper : proper2 box.
  Lemma box_orient pos a b c : (0 < orient (positions2 (box_remap2 box) pos a) (positions2 (box_remap2 box) pos b) (positions2 (box_remap2 box) pos c))%Q <->
    (0 < orient (at_pos pos a) (at_pos pos b) (at_pos pos c))%Q.
  Proof.
    destruct (box_remap_eq box proper) as [min [max [emin [emax [_ [_ [E [A [B _]]]]]]]]]. unfold positions2, at_pos. rewrite !E.
    set (k := (/ ((Geometry_Model.x2 emax - Geometry_Model.x2 emin) * (Geometry_Model.y2 emax - Geometry_Model.y2 emin)))%Q).
    assert (KP : (0 < k)%Q) by (apply Qinv_lt_0_compat; apply qmul_pos; lra).
    assert (FO : forall a b c, (orient (remap2 emin emax a) (remap2 emin emax b) (remap2 emin emax c) == k * orient a b c)%Q) by (intros; now apply remap_orient).
    exact (stretch_pos _ k KP FO _ _ _).
  Qed.
  Hypothesis square : (x2 (max2 box) - x2 (min2 box) == y2 (max2 box) - y2 (min2 box))%Q.
  Lemma box_similar : exists (f g : Geometry_Model.point2 -> Geometry_Model.point2) k, (0 < k)%Q /\
    (forall pos v, positions2 (box_remap2 box) pos v = f (at_pos pos v)) /\ (forall x, same_point (f (g x)) x) /\
    (forall a b, dist2_2 (f a) (f b) == k * dist2_2 a b)%Q.
  Proof.
    destruct (box_remap_eq box proper) as [min [max [emin [emax [_ [_ [E [A [B [W1 W2]]]]]]]]]].
    exists (remap2 emin emax), (unmap2 emin emax), (/ ((Geometry_Model.x2 emax - Geometry_Model.x2 emin) * (Geometry_Model.x2 emax - Geometry_Model.x2 emin)))%Q.
    split; [apply Qinv_lt_0_compat; apply qmul_pos; lra|]. split; [intros; unfold positions2, at_pos; apply E|].
    split; [intros; now apply remap_inverse|]. intros. apply remap_dist; [exact A|lra].
  Qed.
  Lemma box_empty pos n a b c : empty_circumcircle2 (positions2 (box_remap2 box) pos) n a b c <-> empty_circumcircle2 (at_pos pos) n a b c.
  Proof.
    destruct box_similar as [f [g [k [KP [E [FG FD]]]]]]. split.
    - apply (stretch_empty f g FG (at_pos pos) (positions2 (box_remap2 box) pos) (E pos) k KP FD).
    - intros [o [[C1 C2] H]]. exists (f o). unfold circumscribed2, shape2 in *. cbn [Geometry_Model.t2p1 Geometry_Model.t2p2 Geometry_Model.t2p3] in *.
      rewrite !E, !FD. split; [rewrite C1, C2; split; reflexivity|]. intros v V1 V2 V3 V4. rewrite !E, !FD. apply Qmult_lt_l; auto.
  Qed.
End Box.

Section Whole.
  Variables (ranks : nat) (cfg : config) (build_fuel search_fuel : nat) (pop : nat -> list nat -> nat).
  Variables (box : extent2) (particles order : nat -> list (nat * vec2)).
  Variables (circumcircle : list vec2 -> vec2 * Q) (characteristic_length : Q) (chunk_size : nat).
  Hypothesis D : distributed2 ranks box particles.
  Hypothesis F : max_depth cfg < build_fuel.
  Notation remap := (box_remap2 box). Notation outer := (box_outer2 box).
  Variables (fuel : nat) (w w' : list rank_state).
  Hypothesis start : starts_in_order2 ranks pop particles order remap outer w.
  Hypothesis ended : run2 ranks cfg build_fuel search_fuel pop box particles remap circumcircle characteristic_length chunk_size fuel w = Some (Done w').
  Notation image := (image_of vec2 wrap2 (images2 box) particles).
  Hypothesis square : (x2 (max2 box) - x2 (min2 box) == y2 (max2 box) - y2 (min2 box))%Q.
  Hypothesis circles : covers_circles2 to_point2 circumcircle.
  Variables (pop' : nat -> list nat -> nat) (l : list vec2) (whole : triangulation).
  Hypothesis all : all_images2 box particles l.
  Hypothesis built : whole2 box pop' l = Some whole.
  Hypothesis distinct : distinct_images2 box particles.
  Notation all_pos := (whole_points box l).
  Let PB := di2_box _ _ _ D.

  Lemma whole_is : good (positions2 remap all_pos) whole /\ num_points whole = 3 + length l /\ length all_pos = 3 + length l.
  Proof.
    destruct (box_whole box PB pop' l whole built) as [A B]. split; [exact A|]. split; [exact B|]. unfold whole_points. rewrite app_length, three. reflexivity.
  Qed.
  Lemma whole_apart u v x y : nth_error all_pos u = Some x -> nth_error all_pos v = Some y -> same_position x y -> (exists a b, is_triangle whole u a b) -> v = u.
  Proof.
    clear F. intros E1 E2 E3 [a [b T]]. destruct whole_is as [G [N L]]. apply is_triangle_tri in T. destruct T as [i T].
    assert (v < length all_pos) by (apply nth_error_Some; congruence).
    apply (good_apart _ _ _ _ _ _ v G T); [lia|]. rewrite (positions_nth remap _ _ _ E1), (positions_nth remap _ _ _ E2). apply box_same; [exact PB|].
    now apply same_position_sym.
  Qed.
  Lemma image_at v x : 3 <= v -> nth_error all_pos v = Some x -> exists rank id wr, image rank id wr x.
  Proof.
    clear F. intros L E. apply all. unfold whole_points in E. rewrite nth_error_app2 in E by (rewrite three; lia). exact (nth_error_In _ _ E).
  Qed.
  Lemma image_index x rank id wr : image rank id wr x -> exists v, 3 <= v < num_points whole /\ nth_error all_pos v = Some x.
  Proof.
    clear F. intro H. assert (I : In x l) by (apply all; eauto). apply In_nth_error in I. destruct I as [k Hk]. exists (3 + k).
    assert (k < length l) by (apply nth_error_Some; congruence). destruct whole_is as [_ [N _]]. split; [lia|].
    unfold whole_points. rewrite nth_error_app2 by (rewrite three; lia). rewrite <- Hk, three. f_equal. lia.
  Qed.

  Section OneRank.
  Variables (r : nat) (s : rank_state).
  Hypothesis here : nth_error w' r = Some s.
  Notation local := (order r). Notation n := (length local). Notation h := (length (haloes s)).
  Let R := rank_is ranks cfg build_fuel search_fuel pop box particles order circumcircle characteristic_length chunk_size D F fuel w w' start ended r s here.
  Let LY := layout_is ranks cfg build_fuel search_fuel pop box particles order circumcircle characteristic_length chunk_size D F fuel w w' start ended r s here.
  Let CN := count_is ranks cfg build_fuel search_fuel pop box particles order circumcircle characteristic_length chunk_size D F fuel w w' start ended r s here.
  Let PI := point_image ranks cfg build_fuel search_fuel pop box particles order circumcircle characteristic_length chunk_size D F fuel w w' start ended r s here.
  Lemma rank_apart u v x y : nth_error (points s) u = Some x -> nth_error (points s) v = Some y -> same_position x y ->
    (exists a b, is_triangle (tri_of s) u a b) -> v = u.
  Proof.
    intros E1 E2 E3 [a [b T]]. apply is_triangle_tri in T. destruct T as [i T].
    assert (v < length (points s)) by (apply nth_error_Some; congruence).
    apply (good_apart _ _ _ _ _ _ v (rd_good _ _ _ _ _ R) T); [rewrite <- (rd_points _ _ _ _ _ R); lia|].
    rewrite (positions_nth remap _ _ _ E1), (positions_nth remap _ _ _ E2). apply box_same; [exact PB|]. now apply same_position_sym.
  Qed.
  Lemma inner_at p : 3 <= p < 3 + n -> nth_error (kinds s) p = Some Inner.
  Proof.
    intro H. destruct (ly_kinds _ _ _ _ LY) as [ks [-> _]]. rewrite nth_error_app2 by (rewrite map_length, three; lia).
    rewrite map_length, three, nth_error_app1 by (rewrite map_length; lia).
    destruct (nth_error local (p - 3)) as [x|] eqn:E; [|apply nth_error_None in E; lia]. now rewrite nth_map, E.
  Qed.
  Lemma star_here p p' : 3 <= p < 3 + n -> same_at (points s) all_pos p p' -> same_triangles_around (points s) (tri_of s) p all_pos whole p'.
  Proof.
    intros Hp E. exact (star_box ranks cfg build_fuel search_fuel pop box particles circumcircle characteristic_length chunk_size pop' l whole fuel w w' r s p p'
      D F square circles all built (order_starts _ _ _ _ _ _ _ start) ended here (inner_at p Hp) E).
  Qed.
  Notation type_at := (type_at order r s).
  Lemma corner_bound p a b : is_triangle (tri_of s) p a b -> p < num_points (tri_of s).
  Proof. intro T. apply is_triangle_tri in T. destruct T as [i T]. exact (tl_lt _ _ _ (gd_tiling _ _ (rd_good _ _ _ _ _ R)) _ _ _ _ T). Qed.
  Lemma corner_bound' p a b : is_triangle whole p a b -> p < num_points whole.
  Proof. intro T. apply is_triangle_tri in T. destruct T as [i T]. exact (tl_lt _ _ _ (gd_tiling _ _ (proj1 whole_is)) _ _ _ _ T). Qed.
  Lemma outer_nth v : v < 3 -> nth_error (points s) v = nth_error all_pos v.
  Proof.
    intro H. destruct (ly_points _ _ _ _ LY) as [hs ->]. unfold whole_points. rewrite !nth_error_app1 by (rewrite three; lia). reflexivity.
  Qed.
  Lemma refers q q' periodic : (exists a b, is_triangle (tri_of s) q a b) -> (exists a b, is_triangle whole q' a b) -> same_at (points s) all_pos q q' ->
    refers_to box particles l periodic r q' (map_ptype (type_at q) periodic).
  Proof.
    intros T T' [x [x' [E1 [E2 E3]]]]. destruct (Nat.lt_ge_cases q 3) as [L|L].
    - assert (q = q') as <-.
      { apply (whole_apart q' q x' x E2); [rewrite <- outer_nth by exact L; exact E1|now apply same_position_sym|exact T']. }
      left. split; [exact L|]. unfold VoronoiGrid_Proofs.type_at. destruct (Nat.ltb_spec q 3); [|lia]. now destruct periodic.
    - right. assert (L' : 3 <= q').
      { destruct (Nat.lt_ge_cases q' 3) as [L'|]; [exfalso|assumption].
        assert (q' = q); [|lia]. apply (rank_apart q q' x x' E1); [rewrite outer_nth by exact L'; exact E2|exact E3|exact T]. }
      split; [exact L'|]. destruct T as [a [b T]]. pose proof (corner_bound _ _ _ T) as Lq.
      destruct (PI q (conj L Lq)) as [rank [id [wr [pos [pos' [K1 [K2 [K3 [K4 _]]]]]]]]]. rewrite E1 in K3. injection K3 as <-.
      destruct (image_at q' x' L' E2) as [rank2 [id2 [wr2 K5]]].
      assert (rank = rank2 /\ id = id2 /\ wr = wr2) as [<- [<- <-]].
      { apply (distinct _ _ _ _ _ _ _ _ K2 K5). eapply same_position_trans; [apply same_position_sym; exact K4|exact E3]. }
      exists rank, id, wr, x'. split; [exact E2|]. split; [exact K5|]. rewrite K1. unfold shown_type, image_type, map_ptype.
      destruct (is_periodic2 wr); destruct (rank =? r); destruct periodic; reflexivity.
  Qed.
  Lemma strict_here p : forall i j a b c o, tri (tri_of s) i p a b -> tri (tri_of s) j p b c -> circumscribed2 (shape2 (original_point s) p a b) o ->
    (dist2_2 o (original_point s p) < dist2_2 o (original_point s c))%Q.
  Proof.
    intros i j a b c o H K CO. pose proof (rd_good _ _ _ _ _ R) as G.
    assert (TU : (0 < orient (positions2 remap (points s) 0) (positions2 remap (points s) 1) (positions2 remap (points s) 2))%Q).
    { destruct (ly_points _ _ _ _ LY) as [hs E]. rewrite E. rewrite !(positions_app remap) by (rewrite three; lia). now apply box_turn. }
    destruct (good_delaunay _ _ G TU) as [_ EM]. assert (T : is_triangle (tri_of s) p a b) by (apply is_triangle_tri; eauto).
    pose proof (EM p a b T) as E0. pose proof (proj1 (box_empty box PB square _ _ _ _ _) E0) as E1. clear E0. rename E1 into E0. destruct E0 as [o' [CO' E0]].
    assert (P0 : (0 < orient (original_point s p) (original_point s a) (original_point s b))%Q).
    { pose proof (tl_pos _ _ _ (gd_tiling _ _ G) _ _ _ _ H) as X. exact (proj1 (box_orient box PB _ _ _ _) X). }
    assert (A : ~ (area2 (shape2 (original_point s) p a b) == 0)%Q) by (unfold orient in P0; unfold shape2; intro Z; rewrite Z in P0; lra).
    rewrite !(circle_dist_eq _ o o' _ A CO CO'). destruct (tri_distinct _ _ G _ _ _ _ K) as [N1 [N2 N3]]. apply E0; auto.
    - exact (tl_lt _ _ _ (gd_tiling _ _ G) _ _ _ _ (tri_rot _ _ _ _ _ (tri_rot _ _ _ _ _ K))).
    - intros ->. exact (tri_turned _ _ p G _ _ _ _ _ _ H K (conj eq_refl eq_refl)).
  Qed.

  (** ** Cells *)
  Let TYI := types_are ranks cfg build_fuel search_fuel pop box particles order circumcircle characteristic_length chunk_size D F fuel w w' start ended r s here.
  Let OUI := outer_is ranks cfg build_fuel search_fuel pop box particles order circumcircle characteristic_length chunk_size D F fuel w w' start ended r s here.
  Let CCW := ccw_is ranks cfg build_fuel search_fuel pop box particles order circumcircle characteristic_length chunk_size D F fuel w w' start ended r s here.
  Notation cell_is := (cell_is order r s).
  Lemma whole_cell_here periodic p p' c : 3 <= p < 3 + n -> same_at (points s) all_pos p p' -> cell_is p c ->
    whole_cell box particles l whole periodic r p' (grid_of periodic c).
  Proof.
    intros Hp E [N C]. constructor.
    - destruct (cl_faces _ _ _ _ _ C) as [qs [ND [QN FA]]]. destruct whole_is as [GW _].
      pose proof (rd_good _ _ _ _ _ R) as G.
      destruct (faces_same (points s) all_pos (tri_of s) whole p p' _ _ G GW rank_apart whole_apart E (star_here p p' Hp E) type_at qs (cell_faces c) ND QN FA)
        as [qs' [ND' [QN' FA']]].
      exists qs'. split; [exact ND'|]. split; [exact QN'|]. unfold grid_of. cbn [neighbours].
      pose proof (fun q q0 => refers q q0 periodic) as RF. clear -FA' G GW RF. induction FA' as [|q' f qs' fs [q [N [N' [E H]]]] FA' IH]; cbn [map]; constructor; [|exact IH].
      exists (map_ptype (type_at q) periodic). split.
      + apply RF; [exact (nb_tri _ _ _ G q N)|exact (nb_tri' _ _ _ GW q' N')|exact E].
      + destruct H as [f1 f2 f3 f4]. constructor; cbn [connection normal area_sq]; auto. now rewrite f1.
    - assert (P : 3 <= p < num_points (tri_of s)) by (rewrite CN; lia).
      destruct (volume_ok ptype (Boundary wrap2) _ (original_point s) (is_outer s) (cell_of_point (point_map local s)) type_at (tri_of s) p (rd_good _ _ _ _ _ R) P OUI TYI CCW
        (strict_here p) c N) as [ws [FW V]].
      exists ws. unfold grid_of. cbn [neighbours volume]. split; [|exact V]. clear -FW.
      induction FW as [|f x fs ws [H1 H2] FW IH]; cbn [map]; constructor; [|exact IH]. cbn [normal area_sq]. unfold dot2. auto.
  Qed.
  Theorem grid_here periodic : exists g, construct_grid local s periodic = Some g /\ map fst (local_cells g) = map fst local /\
    (forall id pos c v x, In (id, c) (local_cells g) -> In (id, pos) (particles r) -> nth_error all_pos v = Some x -> same_position pos x ->
       whole_cell box particles l whole periodic r v c) /\
    (forall q x, In (q, x) (halo_ids g) <-> exists e f, In e (local_cells g) /\ In f (neighbours (snd e)) /\
       (connection f = Remote wrap2 x q \/ exists wr, connection f = RemotePeriodic wrap2 x q wr)).
  Proof.
    destruct (construct_grid_ok ranks cfg build_fuel search_fuel pop box particles order circumcircle characteristic_length chunk_size D F fuel w w' start ended r s here periodic)
      as [g [E [FA HI]]].
    exists g. split; [exact E|].
    assert (IDS : map fst (local_cells g) = map fst local).
    { clear -FA. assert (X : map fst (local_cells g) = map fst (map fst (combine local (seq 3 n)))).
      { induction FA as [|xp e xs es [H _] FA IH]; cbn [map]; [reflexivity|]. now rewrite H, IH. }
      rewrite X, combine_fst by (now rewrite seq_length). reflexivity. }
    split; [exact IDS|].
    assert (LC : forall id c, In (id, c) (local_cells g) -> exists pos p cc, In (id, pos) (particles r) /\ 3 <= p < 3 + n /\ nth_error (points s) p = Some pos /\
        type_at p = Local wrap2 id /\ cell_is p cc /\ c = grid_of periodic cc).
    { intros id c H. destruct (Forall2_in_r _ _ _ _ FA H) as [[[id' pos] p] [I [X1 [X2 [X3 [cc [X4 X5]]]]]]]. cbn [fst snd] in *. subst id' c.
      exists pos, p, cc. pose proof (in_combine_l _ _ _ _ I) as I1. pose proof (in_combine_r _ _ _ _ I) as I2. apply in_seq in I2.
      split; [|split; [lia|auto]]. apply (local_particles ranks pop box particles order w start r). exact I1. }
    assert (CL : forall p, 3 <= p < 3 + n -> exists id cc, type_at p = Local wrap2 id /\ cell_is p cc /\ In (id, grid_of periodic cc) (local_cells g)).
    { intros p Hp. destruct (nth_error local (p - 3)) as [x|] eqn:Ex; [|apply nth_error_None in Ex; lia].
      assert (I : In (x, p) (combine local (seq 3 n))) by (apply combine_seq; split; [lia|exact Ex]).
      destruct (Forall2_in_l _ _ _ _ FA I) as [[id c] [H [X1 [X2 [X3 [cc [X4 X5]]]]]]]. cbn [fst snd] in *. subst id c. exists (fst x), cc. auto. }
    split.
    - intros id pos c v x H HP Nv SP. destruct (LC id c H) as [pos' [p [cc [I [Hp [Np [T [C ->]]]]]]]].
      assert (pos' = pos) as ->.
      { pose proof (di2_ids _ _ _ D r) as ND. clear -ND I HP. revert ND I HP. generalize (particles r). intros ps ND I HP.
        induction ps as [|[a b] ps IH]; [destruct I|]. cbn in ND. apply NoDup_cons_iff in ND. destruct ND as [N1 N2].
        destruct I as [I|I]; destruct HP as [HP|HP]; [congruence| | |auto].
        - injection I as -> ->. exfalso. apply N1. change id with (fst (id, pos)). now apply in_map.
        - injection HP as -> ->. exfalso. apply N1. change id with (fst (id, pos')). now apply in_map. }
      apply (whole_cell_here periodic p v cc Hp); [|exact C]. exists pos, x. auto.
    - intros q x. rewrite HI. split.
      + intros [Q [p [c [wr [C [Hp [T [PW EX]]]]]]]]. apply existsb_exists in EX. destruct EX as [f [Hf EX]]. unfold grid_of in Hf. cbn [neighbours] in Hf.
        apply in_map_iff in Hf. destruct Hf as [f0 [<- Hf]]. cbn [connection] in EX.
        destruct (cl_faces _ _ _ _ _ (proj2 C)) as [qs [_ [QN FC]]]. destruct (Forall2_in_r _ _ _ _ FC Hf) as [v [Hv Fv]]. apply QN in Hv.
        rewrite (vf_type _ _ _ _ _ _ Fv) in EX.
        assert (Lv : 3 <= v < 3 + n).
        { apply (type_local ranks cfg build_fuel search_fuel pop box particles order circumcircle characteristic_length chunk_size D F fuel w w' start ended r s here). split.
          - destruct Hv as [_ [i [t [Ht [_ Hv]]]]]. exact (proj2 (proj2 (iv_corners _ _ _ (gd_inv _ _ (rd_good _ _ _ _ _ R)) _ _ Ht)) v Hv).
          - destruct (type_at v); unfold map_ptype in EX; destruct periodic; try discriminate; eauto. }
        destruct (CL v Lv) as [id [cc [Tv [Cv I]]]]. exists (id, grid_of periodic cc). cbn [snd].
        apply neighbour_sym in Hv. destruct (cl_faces _ _ _ _ _ (proj2 Cv)) as [qs' [_ [QN' FC']]]. apply QN' in Hv.
        destruct (Forall2_in_l _ _ _ _ FC' Hv) as [f [Hf' Fp]].
        exists (VFace (map_ptype (connection f) periodic) (normal f) (area_sq f)). split; [exact I|].
        split; [unfold grid_of; cbn [neighbours]; apply in_map_iff; eauto|]. cbn [connection]. rewrite (vf_type _ _ _ _ _ _ Fp), T.
        unfold image_type, map_ptype. destruct (is_periodic2 wr).
        * rewrite (PW eq_refl). destruct (Nat.eqb_spec q r); [contradiction|]. eauto.
        * destruct (Nat.eqb_spec q r); [contradiction|]. destruct periodic; auto.
      + intros [[id c] [f [I [Hf CO]]]]. destruct (LC id c I) as [pos [p [cc [_ [Hp [_ [Tp [C ->]]]]]]]]. cbn [snd] in Hf. unfold grid_of in Hf. cbn [neighbours] in Hf.
        apply in_map_iff in Hf. destruct Hf as [f0 [<- Hf]]. cbn [connection] in CO.
        destruct (cl_faces _ _ _ _ _ (proj2 C)) as [qs [_ [QN FC]]]. destruct (Forall2_in_r _ _ _ _ FC Hf) as [v [Hv Fv]]. apply QN in Hv.
        rewrite (vf_type _ _ _ _ _ _ Fv) in CO.
        assert (Bv : v < num_points (tri_of s)).
        { destruct Hv as [_ [i [t [Ht [_ Hv]]]]]. exact (proj2 (proj2 (iv_corners _ _ _ (gd_inv _ _ (rd_good _ _ _ _ _ R)) _ _ Ht)) v Hv). }
        assert (L3 : 3 <= v).
        { destruct (Nat.lt_ge_cases v 3) as [L|]; [exfalso|assumption]. unfold VoronoiGrid_Proofs.type_at in CO. destruct (Nat.ltb_spec v 3); [|lia].
          unfold map_ptype in CO. destruct CO as [CO|[wr CO]]; destruct periodic; discriminate. }
        destruct (PI v (conj L3 Bv)) as [q' [x' [wr [_ [_ [T [_ [_ [_ TL]]]]]]]]].
        assert (Y : q' = q /\ x' = x /\ q <> r /\ (is_periodic2 wr = true -> periodic = true)).
        { rewrite T in CO. unfold image_type, map_ptype in CO.
          destruct (is_periodic2 wr); destruct (Nat.eqb_spec q' r); destruct periodic; destruct CO as [CO|[wr' CO]]; try discriminate; injection CO; intros; subst; auto. }
        destruct Y as [-> [-> [Q PW]]]. split; [exact Q|].
        assert (HV : 3 + n <= v < 3 + n + h).
        { rewrite CN in Bv. split; [|lia]. destruct (Nat.lt_ge_cases v (3 + n)) as [L|]; [exfalso|assumption]. apply TL in L. destruct L. contradiction. }
        destruct (cell_ok ranks cfg build_fuel search_fuel pop box particles order circumcircle characteristic_length chunk_size D F fuel w w' start ended r s here v (conj L3 Bv)) as [cv [_ Cv]].
        exists v, cv, wr. split; [exact Cv|]. split; [exact HV|]. split; [exact T|]. split; [exact PW|].
        apply neighbour_sym in Hv. destruct (cl_faces _ _ _ _ _ (proj2 Cv)) as [qs' [_ [QN' FC']]]. apply QN' in Hv.
        destruct (Forall2_in_l _ _ _ _ FC' Hv) as [f [Hf' Fp]]. apply existsb_exists.
        exists (VFace (map_ptype (connection f) periodic) (normal f) (area_sq f)). split; [unfold grid_of; cbn [neighbours]; apply in_map_iff; eauto|].
        cbn [connection]. rewrite (vf_type _ _ _ _ _ _ Fp), Tp. unfold map_ptype. destruct periodic; reflexivity.
  Qed.
  End OneRank.
End Whole.
