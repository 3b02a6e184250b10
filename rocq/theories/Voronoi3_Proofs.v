(** Proofs for [Voronoi3_Model]. *)
From Coq Require Import List Arith Lia QArith Qabs Qminmax Lqa Setoid Bool Permutation Reals Qreals.
From Coq Require Lra.
From Verif Require Cyclic_Model Cyclic_Spec Cyclic_Proofs.
From Verif Require Import Geometry_Model Geometry_Spec Geometry_Proofs GeometrySolve_Proofs Circle2_Proofs Tiling2_Proofs Delaunay_Model
  DelaunayGlobal3_Spec DelaunayBuild_Proofs DelaunaySurgery_Proofs Delaunay2_Proofs Delaunay3_Proofs Sphere3_Proofs Tiling3_Proofs DelaunayLink3_Proofs
  DelaunayGlobal3_Proofs DelaunayUnique3_Proofs Voronoi_Model Voronoi_Spec Voronoi3_Model Voronoi3_Spec VoronoiRing_Proofs Voronoi_Proofs VoronoiRing3_Proofs.
Import ListNotations.
Local Open Scope nat_scope.
Notation around := Cyclic_Spec.around.

(** ** Geometry *)
Local Open Scope Q_scope.
Lemma circumscribed3_even a b c d x y z w (pts : nat -> point3) o : even4 [a; b; c; d] [x; y; z; w] ->
  circumscribed3 (TT (pts a) (pts b) (pts c) (pts d)) o -> circumscribed3 (TT (pts x) (pts y) (pts z) (pts w)) o.
Proof.
  intros E H. apply (even4_cases (fun x y z w => circumscribed3 (TT (pts x) (pts y) (pts z) (pts w)) o) a b c d x y z w); [| |exact E|exact H];
    clear; unfold circumscribed3; cbn [ttp1 ttp2 ttp3 ttp4]; intros a b c d [A [B C]]; repeat split; lra.
Qed.
(** The scalar product of the directions from [p]. *)
Definition dotp3 (p u v : point3) : Q := dot3 (sub3 u p) (sub3 v p).
Lemma dotp3_sym p u v : dotp3 p u v == dotp3 p v u.
Proof. unfold dotp3, dot3, sub3. cbn. ring. Qed.
Lemma circum_dot3 p a b c v : circumscribed3 (TT p a b c) v ->
  2 * dotp3 p v a == dotp3 p a a /\ 2 * dotp3 p v b == dotp3 p b b /\ 2 * dotp3 p v c == dotp3 p c c.
Proof.
  unfold circumscribed3, dist2_3, dotp3, dot3, sub3. cbn. destruct p as [px py pz], a as [ax ay az], b as [bx by_ bz], c as [cx cy cz], v as [vx vy vz]. cbn.
  intros [A [B C]]. repeat split; lra.
Qed.
Lemma dist_dot3 p x b : dist2_3 x b - dist2_3 x p == dotp3 p b b - 2 * dotp3 p x b.
Proof. unfold dist2_3, dotp3, dot3, sub3. cbn. ring. Qed.
Lemma turn3_eq n x a b : turn3 n x a b == dot3 n (cross3 (sub3 a x) (sub3 b x)).
Proof. unfold turn3, volume6, triple, dot3, cross3, sub3, add3. cbn. ring. Qed.
(** The centers of consecutive spheres around the line from [p] to [q], which have [b] in common, turn around the places in the bisecting
    plane that are closer to [p] than to [b]. *)
Lemma gram n w e b c : dot3 n w == 0 -> dot3 n e == 0 -> dot3 b e == 0 ->
  dot3 n (cross3 w e) * dot3 n (cross3 b c) == dot3 n n * (dot3 w b * dot3 c e).
Proof.
  intros H1 H2 H3.
  assert (G : dot3 n (cross3 w e) * dot3 n (cross3 b c) == dot3 n n * (dot3 w b * dot3 c e - dot3 w c * dot3 b e)
    - dot3 n b * (dot3 n w * dot3 c e - dot3 w c * dot3 n e) + dot3 n c * (dot3 n w * dot3 b e - dot3 w b * dot3 n e)).
  { unfold dot3, cross3. cbn. ring. }
  rewrite G, H1, H2, H3. ring.
Qed.
Lemma bisector3 p q a b c v1 v2 : 0 < orient3 p q b c -> circumscribed3 (TT p q a b) v1 -> circumscribed3 (TT p q b c) v2 ->
  dist2_3 v1 p < dist2_3 v1 c -> exists m, 0 < m /\ forall x, 2 * dotp3 p x q == dotp3 p q q ->
    turn3 (sub3 q p) x v1 v2 == m * (dist2_3 x b - dist2_3 x p).
Proof.
  intros P0 C1 C2 O. destruct (circum_dot3 _ _ _ _ _ C1) as [Q1 [_ B1]]. destruct (circum_dot3 _ _ _ _ _ C2) as [Q2 [B2 D2]].
  pose proof (dist_dot3 p v1 c) as O'.
  set (n := sub3 q p) in *. set (e := sub3 v2 v1).
  assert (En : dot3 n e == 0). { unfold n, e, dotp3, dot3, sub3 in *. cbn in *. lra. }
  assert (Eb : dot3 (sub3 b p) e == 0). { unfold n, e, dotp3, dot3, sub3 in *. cbn in *. lra. }
  assert (Ec : 2 * dot3 (sub3 c p) e == 2 * dotp3 p v2 c - 2 * dotp3 p v1 c) by (unfold e, dotp3, dot3, sub3; cbn; ring).
  assert (Ep : 0 < dot3 (sub3 c p) e) by lra.
  assert (V : orient3 p q b c == dot3 n (cross3 (sub3 b p) (sub3 c p))) by (unfold n, orient3, volume6, triple, dot3, cross3, sub3; cbn; ring).
  assert (NN : 0 < dot3 n n).
  { destruct (Qlt_le_dec 0 (dot3 n n)) as [K|K]; [exact K|exfalso].
    pose proof (dist3_nonneg q p) as D'. assert (Z : dist2_3 q p == 0) by (unfold n, dot3, sub3, dist2_3 in *; cbn in *; lra).
    apply dist3_zero in Z. destruct Z as [Z1 [Z2 Z3]]. assert (orient3 p q b c == 0); [|lra].
    unfold orient3, volume6, triple. cbn. rewrite Z1, Z2, Z3. ring. }
  exists (dot3 n n * dot3 (sub3 c p) e / (2 * orient3 p q b c)). split.
  - apply Qlt_shift_div_l; [lra|]. pose proof (qmul_pos _ _ NN Ep). lra.
  - intros x X. set (w := sub3 v1 x).
    assert (Ew : dot3 n w == 0). { unfold n, w, dotp3, dot3, sub3 in *. cbn in *. lra. }
    assert (T : turn3 n x v1 v2 == dot3 n (cross3 w e)) by (unfold w, e, n, turn3, volume6, triple, dot3, cross3, sub3, add3; cbn; ring).
    pose proof (gram n w e (sub3 b p) (sub3 c p) Ew En Eb) as GR. rewrite <- V, <- T in GR.
    assert (W : 2 * dot3 w (sub3 b p) == dist2_3 x b - dist2_3 x p).
    { rewrite (dist_dot3 p x b). unfold w, dotp3, dot3, sub3 in *. cbn in *. lra. }
    rewrite <- W. apply (Qmult_inj_r _ _ (orient3 p q b c)); [lra|]. rewrite GR. field. lra.
Qed.
Lemma cone_dot3 p a b c r x : orient3 p a b c * dotp3 p r x ==
  orient3 p r b c * dotp3 p a x + orient3 p a r c * dotp3 p b x + orient3 p a b r * dotp3 p c x.
Proof. unfold orient3, volume6, triple, dotp3, dot3, sub3. cbn. ring. Qed.
Lemma orient3_away p q a b : 0 < orient3 p q a b -> 0 < dist2_3 q p.
Proof.
  intro P0. destruct (Qlt_le_dec 0 (dist2_3 q p)) as [K|K]; [exact K|exfalso]. pose proof (dist3_nonneg q p) as D'.
  assert (Z : dist2_3 q p == 0) by lra. apply dist3_zero in Z. destruct Z as [Z1 [Z2 Z3]]. assert (orient3 p q a b == 0); [|lra].
  unfold orient3, volume6, triple. cbn. rewrite Z1, Z2, Z3. ring.
Qed.
(** What the tetrahedra at [b] contribute to the area of the face between [p] and [q], as seen from [x]. *)
Definition turns_by (pts : nat -> point3) (s : triangulation) (p q : nat) (x : point3) (b : nat) (h : Q) : Prop := forall i j a c v v',
  tet s i p q a b -> tet s j p q b c -> circumscribed3 (shape3 pts p q a b) v -> circumscribed3 (shape3 pts p q b c) v' ->
  h == turn3 (sub3 (pts q) (pts p)) x v v'.
Lemma turn3_unique t t' nn x v w v' w' : 0 < volume6 t -> 0 < volume6 t' -> circumscribed3 t v -> circumscribed3 t w ->
  circumscribed3 t' v' -> circumscribed3 t' w' -> turn3 nn x v v' == turn3 nn x w w'.
Proof.
  intros P P' A B A' B'. assert (NZ : ~ volume6 t == 0) by lra. assert (NZ' : ~ volume6 t' == 0) by lra.
  destruct (circumcenter3_unique _ _ NZ A) as [X1 [X2 X3]]. destruct (circumcenter3_unique _ _ NZ B) as [Y1 [Y2 Y3]].
  destruct (circumcenter3_unique _ _ NZ' A') as [X1' [X2' X3']]. destruct (circumcenter3_unique _ _ NZ' B') as [Y1' [Y2' Y3']].
  unfold turn3, volume6, triple. cbn [ttp1 ttp2 ttp3 ttp4]. rewrite X1, X2, X3, Y1, Y2, Y3, X1', X2', X3', Y1', Y2', Y3'. reflexivity.
Qed.
Lemma qsum_opp l : qsum (map Qopp l) == - qsum l.
Proof. induction l as [|a l IH]; cbn [map qsum]; [ring|]. rewrite IH. ring. Qed.
(** The sum around a polygon does not depend on the reference point. *)
Lemma turn3_sum n x y l : qsum (map (fun w => turn3 n x (fst w) (snd w)) (around l)) == qsum (map (fun w => turn3 n y (fst w) (snd w)) (around l)).
Proof.
  pose proof (around_sum (fun u => dot3 n (cross3 u (sub3 x y))) l) as E.
  set (m := around l) in *. clearbody m.
  assert (X : qsum (map (fun w => turn3 n x (fst w) (snd w)) m) == qsum (map (fun w => turn3 n y (fst w) (snd w)) m) +
    (qsum (map (fun e => dot3 n (cross3 (snd e) (sub3 x y))) m) - qsum (map (fun e => dot3 n (cross3 (fst e) (sub3 x y))) m))).
  { clear E. induction m as [|w m IH]; cbn [map qsum]; [ring|]. rewrite IH.
    assert (T : turn3 n x (fst w) (snd w) == turn3 n y (fst w) (snd w) + dot3 n (cross3 (snd w) (sub3 x y)) - dot3 n (cross3 (fst w) (sub3 x y))).
    { unfold turn3, volume6, triple, dot3, cross3, sub3, add3. cbn. ring. }
    rewrite T. ring. }
  rewrite X, E. ring.
Qed.

(** ** Lengths *)
Lemma dot3_nonneg v : 0 <= dot3 v v.
Proof. unfold dot3. nra. Qed.
Lemma length3_sq v : (length3 v * length3 v = Q2R (dot3 v v))%R.
Proof. unfold length3. apply sqrt_sqrt. rewrite <- RMicromega.Q2R_0. apply Qle_Rle, dot3_nonneg. Qed.
Lemma length3_pos v : 0 < dot3 v v -> (0 < length3 v)%R.
Proof. intro H. unfold length3. apply sqrt_lt_R0. rewrite <- RMicromega.Q2R_0. now apply Qlt_Rlt. Qed.
Lemma length3_nonneg v : (0 <= length3 v)%R.
Proof. apply sqrt_pos. Qed.
Lemma Q2R_abs q : (Q2R (Qabs q) = Rabs (Q2R q))%R.
Proof.
  destruct (Qlt_le_dec q 0) as [H|H].
  - rewrite (Qeq_eqR _ _ (Qabs_neg q ltac:(lra))), Q2R_opp. symmetry. apply Rabs_left. rewrite <- RMicromega.Q2R_0. now apply Qlt_Rlt.
  - rewrite (Qeq_eqR _ _ (Qabs_pos q H)). symmetry. apply Rabs_right. rewrite <- RMicromega.Q2R_0. now apply Rle_ge, Qle_Rle.
Qed.
(** The cross product of two vectors that are perpendicular to [n] is parallel to [n]. *)
Lemma cross_length n u w : dot3 n u == 0 -> dot3 n w == 0 -> (length3 (cross3 u w) * length3 n = Q2R (Qabs (dot3 n (cross3 u w))))%R.
Proof.
  intros Hu Hw. unfold length3. rewrite <- sqrt_mult by (rewrite <- RMicromega.Q2R_0; apply Qle_Rle, dot3_nonneg).
  rewrite <- Q2R_mult.
  assert (E : dot3 (cross3 u w) (cross3 u w) * dot3 n n == Qabs (dot3 n (cross3 u w)) * Qabs (dot3 n (cross3 u w))).
  { rewrite <- Qabs_Qmult. rewrite Qabs_pos by (destruct (Qlt_le_dec (dot3 n (cross3 u w)) 0); nra).
    assert (X : dot3 (cross3 u w) (cross3 u w) * dot3 n n == dot3 n (cross3 u w) * dot3 n (cross3 u w) +
      (dot3 u u * (dot3 n w * dot3 n w) - 2 * dot3 u w * (dot3 n u * dot3 n w) + dot3 w w * (dot3 n u * dot3 n u))) by (unfold dot3, cross3; cbn; ring).
    rewrite X, Hu, Hw. ring. }
  rewrite (Qeq_eqR _ _ E), Q2R_mult. apply sqrt_square. rewrite <- RMicromega.Q2R_0. apply Qle_Rle, Qabs_nonneg.
Qed.
Lemma sumR_scale (k : R) l : (sumR (map (fun x => x * k) l) = sumR l * k)%R.
Proof. unfold sumR. induction l as [|a l IH]; cbn; [ring|]. rewrite IH. ring. Qed.
Lemma Q2R_qsum l : (Q2R (qsum l) = sumR (map Q2R l))%R.
Proof. unfold sumR. induction l as [|a l IH]; cbn [qsum map fold_right]; [apply RMicromega.Q2R_0|]. now rewrite Q2R_plus, IH. Qed.
Lemma qsum_scale k l : qsum (map (fun x => k * x) l) == k * qsum l.
Proof. induction l as [|a l IH]; cbn [map qsum]; [ring|]. rewrite IH. ring. Qed.
Lemma qsum_ext {A} (f g : A -> Q) l : (forall a, In a l -> f a == g a) -> qsum (map f l) == qsum (map g l).
Proof. induction l as [|a l IH]; intro H; cbn [map qsum]; [reflexivity|]. rewrite (H a (or_introl eq_refl)), IH; [reflexivity|]. intros; apply H; now right. Qed.

Lemma qsum_nonneg {A} (g : A -> Q) l : (forall a, In a l -> 0 <= g a) -> 0 <= qsum (map g l).
Proof. induction l as [|a l IH]; intro H; cbn [map qsum]; [lra|]. pose proof (H a (or_introl eq_refl)). pose proof (IH (fun x h => H x (or_intror h))). lra. Qed.
Lemma qsum_pos {A} (g : A -> Q) l b : In b l -> 0 < g b -> (forall a, In a l -> 0 <= g a) -> 0 < qsum (map g l).
Proof.
  induction l as [|a l IH]; intros IN P H; [destruct IN|]. cbn [map qsum]. destruct IN as [->|IN].
  - pose proof (qsum_nonneg g l (fun x h => H x (or_intror h))). lra.
  - pose proof (H a (or_introl eq_refl)). pose proof (IH IN P (fun x h => H x (or_intror h))). lra.
Qed.
(** The area of a flat polygon, and the volume of the pyramid over it. *)
Lemma polygon_area_abs n l : (forall a b, In a l -> In b l -> dot3 n (sub3 a b) == 0) -> (2 <= length l)%nat ->
  (polygon_area l * length3 n = Q2R ((1#2) * qsum (map (fun w => Qabs (turn3 n (nth 0 l (P3 0 0 0)) (fst w) (snd w))) (around l))))%R.
Proof.
  intros H L. set (r := nth 0 l (P3 0 0 0)). unfold polygon_area. fold r. rewrite Cyclic_Proofs.windows_spec.
  destruct (Nat.ltb_spec (length l) 2); [lia|]. rewrite <- sumR_scale, map_map, <- qsum_scale, map_map, Q2R_qsum, map_map.
  assert (Hr : In r l) by (apply nth_In; lia). f_equal. apply map_ext_in. intros [a b] I. cbn [fst snd].
  destruct (Cyclic_Proofs.around_once l) as [A1 A2].
  assert (Ha : In a l) by (rewrite <- A1; change a with (fst (a, b)); now apply in_map).
  assert (Hb : In b l) by (apply (Permutation_in _ A2); change b with (snd (a, b)); now apply in_map).
  rewrite Q2R_mult. rewrite Rmult_assoc, (cross_length n _ _ (H r a Hr Ha) (H r b Hr Hb)).
  assert (E : Qabs (dot3 n (cross3 (sub3 r a) (sub3 r b))) == Qabs (turn3 n r a b)).
  { rewrite turn3_eq. assert (X : dot3 n (cross3 (sub3 r a) (sub3 r b)) == dot3 n (cross3 (sub3 a r) (sub3 b r))) by (unfold dot3, cross3, sub3; cbn; ring). now rewrite X. }
  rewrite (Qeq_eqR _ _ E). f_equal; unfold Q2R; cbn; field.
Qed.
Lemma polygon_area_nonneg l : (0 <= polygon_area l)%R.
Proof.
  unfold polygon_area. generalize (Cyclic_Model.periodic_windows_2 l (P3 0 0 0)). intro m. generalize (nth 0 l (P3 0 0 0)). intro r.
  unfold sumR. induction m as [|w m IH]; cbn; [Lra.lra|]. pose proof (length3_nonneg (cross3 (sub3 r (fst w)) (sub3 r (snd w)))). Lra.lra.
Qed.
Lemma pyramid_ok n p l : 0 < dot3 n n -> (forall a b, In a l -> In b l -> dot3 n (sub3 a b) == 0) -> (2 <= length l)%nat ->
  (forall v, In v l -> 2 * dot3 n (sub3 v p) == dot3 n n) ->
  (pyramid_volume n p l = 1/3 * polygon_area l * (1/2 * length3 n) /\ pyramid_volume n p l = Q2R (fan_volume p l))%R.
Proof.
  intros N H L C. assert (LN : (0 < length3 n)%R) by (now apply length3_pos). pose proof (length3_sq n) as SQ.
  set (r := nth 0 l (P3 0 0 0)). assert (Hr : In r l) by (apply nth_In; lia).
  assert (HT : (Rabs (Q2R (dot3 n (sub3 p r)) / length3 n) = 1/2 * length3 n)%R).
  { assert (E : dot3 n (sub3 p r) == - ((1#2) * dot3 n n)).
    { specialize (C r Hr). assert (X : dot3 n (sub3 p r) == - dot3 n (sub3 r p)) by (unfold dot3, sub3; cbn; ring). rewrite X. lra. }
    rewrite (Qeq_eqR _ _ E), Q2R_opp, Q2R_mult, <- SQ.
    replace (- (Q2R (1 # 2) * (length3 n * length3 n)) / length3 n)%R with (- (1/2 * length3 n))%R by (unfold Q2R; cbn; field; Lra.lra).
    rewrite Rabs_Ropp, Rabs_right by Lra.lra. reflexivity. }
  assert (V : (pyramid_volume n p l = 1/3 * polygon_area l * (1/2 * length3 n))%R) by (unfold pyramid_volume; fold r; now rewrite HT).
  split; [exact V|]. rewrite V.
  replace (1/3 * polygon_area l * (1/2 * length3 n))%R with (1/6 * (polygon_area l * length3 n))%R by field.
  rewrite (polygon_area_abs n l H L). fold r.
  assert (E : fan_volume p l == (1#6) * ((1#2) * qsum (map (fun w => Qabs (turn3 n r (fst w) (snd w))) (around l)))).
  { unfold fan_volume. fold r. rewrite qsum_fold, <- !qsum_scale, !map_map. apply qsum_ext. intros [a b] I. cbn [fst snd].
    destruct (Cyclic_Proofs.around_once l) as [A1 A2].
    assert (Ha : In a l) by (rewrite <- A1; change a with (fst (a, b)); now apply in_map).
    assert (Hb : In b l) by (apply (Permutation_in _ A2); change b with (snd (a, b)); now apply in_map).
    assert (X : dot3 n n * volume6 (TT p r a b) == dot3 n n * ((1#2) * turn3 n r a b)).
    { rewrite turn3_eq.
      assert (G : dot3 n n * volume6 (TT p r a b) == dot3 n (sub3 r p) * dot3 n (cross3 (sub3 a r) (sub3 b r)) -
        (dot3 (sub3 r p) (sub3 a r) * dot3 n (cross3 (sub3 n (P3 0 0 0)) (sub3 b r)) + 0)
        + (dot3 n (sub3 a r) * dot3 (sub3 r p) (cross3 n (sub3 b r)) - dot3 n (sub3 b r) * dot3 (sub3 r p) (cross3 n (sub3 a r)))).
      { unfold volume6, triple, dot3, cross3, sub3. cbn. ring. }
      rewrite G, (H a r Ha Hr), (H b r Hb Hr). specialize (C r Hr).
      assert (Z : dot3 n (cross3 (sub3 n (P3 0 0 0)) (sub3 b r)) == 0) by (unfold dot3, cross3, sub3; cbn; ring). rewrite Z.
      assert (C' : dot3 n (sub3 r p) == (1#2) * dot3 n n) by lra. rewrite C'. ring. }
    apply Qmult_inj_l in X; [|lra]. rewrite X, Qabs_Qmult. cbn [Qabs Z.abs]. ring. }
  rewrite (Qeq_eqR _ _ E), (Q2R_mult (1#6)). f_equal; unfold Q2R; cbn; field.
Qed.
Local Open Scope nat_scope.

Lemma nodup_map_on {A B} (f : A -> B) l : NoDup l -> (forall x y, In x l -> In y l -> f x = f y -> x = y) -> NoDup (map f l).
Proof.
  induction 1 as [|a l N H IH]; intro K; cbn; constructor.
  - intro X. apply in_map_iff in X. destruct X as [b [E X]]. apply N. rewrite (K a b); auto; [now left|now right].
  - apply IH. intros x y Hx Hy. apply K; now right.
Qed.
(** ** The cell of a point *)
Section Cells.
  Variable C : Type.
  Variable boundary : C.
  (** The coordinates in which the triangulation was built, and the original coordinates. *)
  Variables pts' pts : nat -> point3.
  Variable outer : nat -> bool.
  Variable cell_map : nat -> option C.
  Variable hash_set : list nat -> list nat.
  Variable ptype : nat -> C.
  Variable s : triangulation.
  Variable p : nat.
  Hypothesis G : good3 pts' s.
  Hypothesis inner : 4 <= p < num_points s.
  Hypothesis outer_is : forall q, q < num_points s -> outer q = (q <? 4).
  Hypothesis types : forall q, q < num_points s -> if q <? 4 then ptype q = boundary else cell_map q = Some (ptype q).
  Hypothesis hash : iterates_set hash_set.
  Hypothesis ccw : forall i a b c d, tet s i a b c d -> (0 < orient3 (pts a) (pts b) (pts c) (pts d))%Q.

  Let I := g3_inv _ _ G.
  Let L := g3_tiling _ _ G.
  Notation items q := (tetras_with_both s p q).
  Notation n q := (length (items q)).
  Notation item q := (fun k => nth k (items q) no_tetra).
  Notation vp q := (fun k => voronoi_point3 pts (snd (item q k))).

  Lemma particle_type3 q : q < num_points s -> get_particle_type C boundary outer cell_map q = Some (ptype q).
  Proof.
    intro H. unfold get_particle_type. rewrite (outer_is q H). specialize (types q H). destruct (q <? 4); [now f_equal|exact types].
  Qed.
  Lemma center_ok3 i t a b c d : In (i, t) (tetras s) -> even4 [a; b; c; d] (points_of t) -> circumscribed3 (shape3 pts a b c d) (voronoi_point3 pts t).
  Proof.
    intros Ht R. destruct (even4_form _ _ _ _ _ R) as [x [y [z [w E]]]]. unfold voronoi_point3, shape3.
    assert (T : tet s i x y z w) by (exists t; split; [exact Ht|rewrite E; apply even4_refl]). rewrite E in R. rewrite E.
    apply (circumscribed3_even x y z w); [now apply even4_sym|]. apply circumcenter3_ok.
    pose proof (ccw i x y z w T) as P. unfold orient3 in P. lra.
  Qed.
  Lemma tet_center q k a b : k < n q -> tet s (fst (item q k)) p q a b -> circumscribed3 (shape3 pts p q a b) (vp q k).
  Proof.
    intros Hk [t [Ht R]]. pose proof (item_in3 s p q k Hk) as [Hi _]. cbn beta in *. destruct (nth k (items q) no_tetra) as [i u]. cbn [fst snd] in *.
    rewrite <- (NoDup_ids_eq _ _ _ _ (iv_ids _ _ _ I) Ht Hi). exact (center_ok3 i t p q a b Ht R).
  Qed.
  Lemma neighbour_tet q : neighbour s p q <-> p <> q /\ exists i a b, tet s i p q a b.
  Proof.
    split.
    - intros [N [i [t [Ht [Hp Hq]]]]]. split; [congruence|]. destruct (both_tet pts' s p G inner i t p q Ht Hp Hq) as [a [b H]]; [congruence|]. eauto.
    - intros [N [i [a [b [t [Ht R]]]]]]. split; [congruence|]. exists i, t. split; [exact Ht|]. split; apply (even4_in _ _ _ _ _ _ R); tauto.
  Qed.
  Lemma neighbour_lt q : neighbour s p q -> q < num_points s.
  Proof. intros [_ [i [t [H [_ Hq]]]]]. exact (proj2 (proj2 (iv_corners _ _ _ I _ _ H)) q Hq). Qed.

  Definition turned_ring3 (q : nat) (ring : list nat) : Prop :=
    (forall i j, In (i, j) (around ring) -> Succ3 s p q i j) \/ (forall i j, In (i, j) (around ring) -> Succ3 s p q j i).
  Lemma ring_bounds3 q ring : Permutation ring (seq 0 (n q)) -> NoDup ring /\ NoDup (around ring) /\ (forall k, k < n q <-> In k ring) /\
    (forall i j, In (i, j) (around ring) -> i < n q /\ j < n q) /\
    (forall k, k < n q -> exists j, In (k, j) (around ring)) /\ (forall k, k < n q -> exists i, In (i, k) (around ring)).
  Proof.
    intro PE. assert (ND : NoDup ring) by (apply (Permutation_NoDup (Permutation_sym PE)), seq_NoDup).
    destruct (Cyclic_Proofs.around_once ring) as [A1 A2].
    assert (IN : forall k, k < n q <-> In k ring).
    { intro k. split; intro H; [apply (Permutation_in _ (Permutation_sym PE)), in_seq; lia|apply (Permutation_in _ PE), in_seq in H; lia]. }
    split; [exact ND|]. split; [apply NoDup_fst; now rewrite A1|]. split; [intro k; apply IN|]. split; [|split].
    - intros i j H. split; apply IN; [rewrite <- A1; change i with (fst (i, j)); now apply in_map|
        apply (Permutation_in _ A2); change j with (snd (i, j)); now apply in_map].
    - intros k Hk. apply IN in Hk. rewrite <- A1 in Hk. apply in_map_iff in Hk. destruct Hk as [[i j] [E H]]. cbn in E. subst i. eauto.
    - intros k Hk. apply IN in Hk. apply (Permutation_in _ (Permutation_sym A2)) in Hk. apply in_map_iff in Hk. destruct Hk as [[i j] [E H]]. cbn in E. subst j. eauto.
  Qed.
  Lemma is_tetra_pq q a b : is_tetra s p q a b <-> exists i, tet s i p q a b \/ tet s i p q b a.
  Proof.
    rewrite (is_tetra_tet s p q a b I). split; intros [i [H|H]]; exists i; auto; right.
    - apply (tet_even _ _ q p a b); [exact H|even].
    - apply (tet_even _ _ p q b a); [exact H|even].
  Qed.
  (** The corners around the line from [p] to [q]. *)
  Lemma ring_corners q ring : p <> q -> Permutation ring (seq 0 (n q)) -> 3 <= length ring -> turned_ring3 q ring ->
    exists r, ring_around s p q r /\ Forall2 (fun ab k => tet s (fst (item q k)) p q (fst ab) (snd ab) \/ tet s (fst (item q k)) p q (snd ab) (fst ab)) (around r) ring.
  Proof.
    intros N PE L3 OR. destruct (ring_bounds3 q ring PE) as [ND [_ [IN [LT _]]]].
    destruct (finite_choice (0, 0) (fun k ab => edge3 s p q k (fst ab) (snd ab)) (n q) (edge_ex3 pts' s p q G inner N)) as [g Hg].
    assert (F2 : forall (h : nat -> nat * nat) (R : nat * nat -> nat -> Prop), (forall k, In k ring -> R (h k) k) -> Forall2 R (map h ring) ring).
    { intros h R. clear. induction ring as [|k r IH]; intro H; cbn; constructor; [apply H; now left|]. apply IH. intros; apply H; now right. }
    destruct OR as [OR|OR].
    - assert (AR : around (map (fun k => fst (g k)) ring) = map (fun k => (fst (g k), snd (g k))) ring).
      { apply around_snd_first. intros i j H. destruct (LT i j H) as [Hi Hj]. destruct (OR i j H) as [_ [_ [a [b [c [E1 E2]]]]]].
        pose proof (tet_unique pts' s p q G N _ _ _ _ _ (Hg i Hi) E1) as [_ X]. pose proof (tet_unique pts' s p q G N _ _ _ _ _ (Hg j Hj) E2) as [Y _]. congruence. }
      exists (map (fun k => fst (g k)) ring). rewrite AR. split.
      + constructor.
        * apply nodup_map_on; [exact ND|]. intros i j Hi Hj E. apply IN in Hi. apply IN in Hj.
          apply (item_eq3 pts' s p q G inner); auto. pose proof (Hg i Hi) as A. pose proof (Hg j Hj) as B. unfold edge3 in A, B. cbn beta in E. rewrite E in A.
          exact (proj1 (tet_facet pts' s p q G _ _ _ _ _ A B)).
        * now rewrite map_length.
        * intros a b. rewrite AR, is_tetra_pq. split.
          { intros [i [H|H]]; destruct (edge_idx3 s p q i _ _ H) as [k [Hk Ek]]; [left|right]; apply in_map_iff; exists k; (split; [|now apply IN]);
            pose proof (Hg k Hk) as A; unfold edge3 in A; cbn beta in Ek, A; rewrite Ek in A; destruct (tet_unique pts' s p q G N _ _ _ _ _ A H); congruence. }
          { intros [H|H]; apply in_map_iff in H; destruct H as [k [E H]]; apply IN in H; pose proof (Hg k H) as A; unfold edge3 in A; injection E as E1 E2; rewrite E1, E2 in A; eauto. }
      + apply F2. intros k Hk. apply IN in Hk. left. exact (Hg k Hk).
    - assert (AR : around (map (fun k => snd (g k)) ring) = map (fun k => (snd (g k), fst (g k))) ring).
      { apply around_snd_first. intros i j H. destruct (LT i j H) as [Hi Hj]. destruct (OR i j H) as [_ [_ [a [b [c [E1 E2]]]]]].
        pose proof (tet_unique pts' s p q G N _ _ _ _ _ (Hg j Hj) E1) as [_ X]. pose proof (tet_unique pts' s p q G N _ _ _ _ _ (Hg i Hi) E2) as [Y _]. congruence. }
      exists (map (fun k => snd (g k)) ring). rewrite AR. split.
      + constructor.
        * apply nodup_map_on; [exact ND|]. intros i j Hi Hj E. apply IN in Hi. apply IN in Hj.
          apply (item_eq3 pts' s p q G inner); auto. pose proof (Hg i Hi) as A. pose proof (Hg j Hj) as B. unfold edge3 in A, B. cbn beta in E. rewrite E in A.
          exact (proj1 (tet_facet2 pts' s p q G inner _ _ _ _ _ A B)).
        * now rewrite map_length.
        * intros a b. rewrite AR, is_tetra_pq. split.
          { intros [i [H|H]]; destruct (edge_idx3 s p q i _ _ H) as [k [Hk Ek]]; [right|left]; apply in_map_iff; exists k; (split; [|now apply IN]);
            pose proof (Hg k Hk) as A; unfold edge3 in A; cbn beta in Ek, A; rewrite Ek in A; destruct (tet_unique pts' s p q G N _ _ _ _ _ A H); congruence. }
          { intros [H|H]; apply in_map_iff in H; destruct H as [k [E H]]; apply IN in H; pose proof (Hg k H) as A; unfold edge3 in A; injection E as E1 E2; rewrite E1, E2 in A; eauto. }
      + apply F2. intros k Hk. apply IN in Hk. right. exact (Hg k Hk).
  Qed.

  (** The face towards [q] as it is computed. *)
  Definition run_face (q : nat) (f : voronoi_face3 C) : Prop :=
    face_perpendicular C boundary pts outer cell_map s p q = Some f /\ is_face3 pts s ptype p q f /\
    exists ring, Permutation ring (seq 0 (n q)) /\ 3 <= length ring /\ turned_ring3 q ring /\ polygon f = map (vp q) ring.
  Lemma face_run q : neighbour s p q -> exists f, face_perpendicular C boundary pts outer cell_map s p q = Some f /\ run_face q f.
  Proof.
    intro NB. pose proof (neighbour_lt q NB) as LQ. destruct (proj1 (neighbour_tet q) NB) as [N EX].
    destruct (edge_ring pts' s p q G inner N EX) as [ring [AR [PE [L3 OR]]]].
    assert (EA : arranged tetras_are_neighbours (items q) = Some (map (fun ij => (item q (fst ij), item q (snd ij))) (around ring))).
    { unfold arranged. unfold related3 in AR. cbn beta in AR. rewrite AR. reflexivity. }
    assert (EF : face_perpendicular C boundary pts outer cell_map s p q = Some (VFace3 (ptype q) (get_normal3 pts p q) (map (vp q) ring))).
    { unfold face_perpendicular. rewrite EA. cbn [bind]. rewrite (particle_type3 q LQ). cbn [bind].
      assert (EP : map (fun ts => voronoi_point3 pts (snd (fst ts))) (map (fun ij => (item q (fst ij), item q (snd ij))) (around ring)) = map (vp q) ring).
      { rewrite map_map. cbn. destruct (Cyclic_Proofs.around_once ring) as [A1 _]. rewrite <- A1 at 2. rewrite map_map. reflexivity. }
      rewrite EP. destruct ring as [|k r]; [cbn in L3; lia|]. reflexivity. }
    eexists. split; [exact EF|]. split; [exact EF|]. split.
    - constructor; try reflexivity. destruct (ring_corners q ring N PE L3 OR) as [r [R1 R2]]. exists r. split; [exact R1|]. cbn [polygon].
      destruct (ring_bounds3 q ring PE) as [_ [_ [IN _]]]. clear - R2 IN ccw I. assert (IN' : forall k, In k ring -> k < n q) by (intro; apply IN). clear IN.
      induction R2 as [|[a b] k l ks H R2 IH]; cbn [map]; constructor.
      + cbn [fst snd] in *. pose proof (IN' k (or_introl eq_refl)) as Hk. destruct H as [H|H]; [now apply tet_center|].
        pose proof (tet_center q k b a Hk H) as X. destruct X as [X1 [X2 X3]]. cbn in *. unfold shape3, circumscribed3. cbn. repeat split; lra.
      + apply IH. intros; apply IN'; now right.
    - exists ring. auto.
  Qed.
  Lemma connected_iff q : In q (connected_points hash_set s p) <-> neighbour s p q.
  Proof.
    unfold connected_points. rewrite (proj2 (hash _)), in_flat_map. split.
    - intros [[i t] [H K]]. apply filter_In in K. destruct K as [K1 K2]. cbn [snd] in K1. apply star_items in H. destruct H as [H1 H2]. cbn [snd] in H2.
      apply negb_true_iff, Nat.eqb_neq in K2. split; [exact K2|]. eauto.
    - intros [N [i [t [Ht [Hp Hq]]]]]. exists (i, t). split; [now apply star_items|]. apply filter_In. split; [exact Hq|]. now apply negb_true_iff, Nat.eqb_neq.
  Qed.
  Lemma new_cell_run3 : exists c qs, new_cell3 C boundary pts outer cell_map hash_set s p = Some c /\
    delaunay_point3 c = p /\ index3 c = ptype p /\ center3 c = pts p /\ is_infinite3 c = is_infinite_cell outer s p /\
    cell_points3 c = map (fun e => voronoi_point3 pts (snd e)) (point_to_tetras s p) /\
    NoDup qs /\ (forall q, In q qs <-> neighbour s p q) /\ Forall2 run_face qs (cell_faces3 c).
  Proof.
    destruct (map_option_forall (face_perpendicular C boundary pts outer cell_map s p) run_face (connected_points hash_set s p)) as [fs [EF FF]].
    { intros q H. apply connected_iff in H. now apply face_run. }
    assert (CM : cell_map p = Some (ptype p)).
    { pose proof (types p ltac:(lia)) as X. destruct (Nat.ltb_spec p 4); [lia|exact X]. }
    unfold new_cell3, get_faces3. rewrite CM. cbn [bind]. rewrite EF. cbn [bind]. eexists _, (connected_points hash_set s p). split; [reflexivity|]. cbn.
    repeat (split; [reflexivity|]). split; [apply (proj1 (hash _))|]. split; [exact connected_iff|exact FF].
  Qed.
  Lemma infinite_iff3 : is_infinite_cell outer s p = true <-> exists q, q < 4 /\ neighbour s p q.
  Proof.
    unfold is_infinite_cell. rewrite existsb_exists. split.
    - intros [[i t] [H K]]. apply existsb_exists in K. destruct K as [q [K1 K2]]. cbn in K1. apply star_items in H. destruct H as [H1 H2]. cbn in H2.
      destruct (iv_corners _ _ _ I _ _ H1) as [_ [_ LT]]. rewrite (outer_is q (LT q K1)) in K2. apply Nat.ltb_lt in K2.
      exists q. split; [exact K2|]. split; [lia|]. eauto.
    - intros [q [Lq [N [i [t [Ht [Hp Hq]]]]]]]. exists (i, t). split; [now apply star_items|]. apply existsb_exists. exists q. split; [exact Hq|].
      destruct (iv_corners _ _ _ I _ _ Ht) as [_ [_ LT]]. rewrite (outer_is q (LT q Hq)). now apply Nat.ltb_lt.
  Qed.
  Lemma star_first i t : In (i, t) (tetras s) -> In p (points_of t) -> exists a b d, even4 [p; a; b; d] (points_of t).
  Proof.
    intros Ht Hp. destruct (iv_corners _ _ _ I i t Ht) as [Len [ND _]]. destruct (points_of t) as [|x [|y [|z [|w [|? ?]]]]] eqn:E; unfold points_of in E; apply (f_equal (@length _)) in E as E'; rewrite map_length in E'; cbn in E'; try lia.
    destruct Hp as [->|[->|[->|[->|[]]]]].
    - exists y, z, w. even.
    - exists x, w, z. even.
    - exists x, y, w. even.
    - exists z, y, x. even.
  Qed.
  Theorem new_cell_ok3 : exists c, new_cell3 C boundary pts outer cell_map hash_set s p = Some c /\ cell_of3 pts s ptype p c.
  Proof.
    destruct new_cell_run3 as [c [qs [E [E1 [E2 [E3 [E4 [E5 [N1 [N2 F]]]]]]]]]]. exists c. split; [exact E|]. constructor; auto.
    - intros v H. rewrite E5 in H. apply in_map_iff in H. destruct H as [[i t] [<- H]]. apply star_items in H. destruct H as [Ht Hp]. cbn [snd] in *.
      destruct (star_first i t Ht Hp) as [a [b [d EV]]]. exists a, b, d. split; [|exact (center_ok3 i t p a b d Ht EV)].
      apply (is_tetra_tet s p a b d I). exists i. left. exists t. auto.
    - intros a b d H. apply (is_tetra_tet s p a b d I) in H.
      assert (X : forall a b, (exists i, tet s i p a b d) -> exists v, In v (cell_points3 c) /\ circumscribed3 (shape3 pts p a b d) v).
      { clear - E5 ccw I. intros a b [i [t [Ht R]]]. exists (voronoi_point3 pts t). split; [|exact (center_ok3 i t p a b d Ht R)].
        rewrite E5. apply in_map_iff. exists (i, t). split; [reflexivity|]. apply star_items. split; [exact Ht|]. apply (even4_in _ _ _ _ _ _ R). tauto. }
      destruct H as [i [H|H]]; [apply X; eauto|]. destruct (X b a) as [v [V1 V2]].
      + exists i. apply (tet_even _ _ a p b d); [exact H|even].
      + exists v. split; [exact V1|]. destruct V2 as [X1 [X2 X3]]. cbn in *. unfold shape3, circumscribed3. cbn. repeat split; lra.
    - exists qs. split; [exact N1|]. split; [exact N2|]. clear - F. induction F as [|q f qs fs H F IH]; constructor; [exact (proj1 (proj2 H))|exact IH].
    - rewrite E4. exact infinite_iff3.
  Qed.

  (** *** What the cell contains *)
  Lemma stays_negative y z : (y < 0)%Q -> exists e0, (0 < e0)%Q /\ (e0 < 1)%Q /\ forall e, (0 < e)%Q -> (e <= e0)%Q -> ((1 - e) * y + e * z < 0)%Q.
  Proof.
    intro Y. pose proof (Qabs_nonneg z) as AZ. pose proof (Qle_Qabs z) as LZ. set (d := (1 - y + Qabs z)%Q). assert (D : (0 < d)%Q) by (unfold d; lra).
    assert (E : ((- y) * (1#2) / d * d == (- y) * (1#2))%Q) by (field; lra). set (e0 := ((- y) * (1#2) / d)%Q) in *.
    assert (P0 : (0 < e0)%Q) by (unfold e0; apply Qlt_shift_div_l; lra).
    exists e0. split; [exact P0|]. split.
    - apply Qlt_shift_div_r; [exact D|]. unfold d. lra.
    - intros e E1 E2. pose proof (qmul_nonneg (e0 - e) d ltac:(lra) ltac:(lra)) as M. pose proof (qmul_pos e (d - (z - y)) E1 ltac:(unfold d; lra)) as M2. lra.
  Qed.
  Lemma leave_tetra a b c d r : ~ cls3 (pts' a) (pts' b) (pts' c) (pts' d) (pts' p) -> exists e0, (0 < e0)%Q /\ (e0 < 1)%Q /\
    forall e, (0 < e)%Q -> (e <= e0)%Q -> ~ cls3 (pts' a) (pts' b) (pts' c) (pts' d) (mix3 e (pts' p) r).
  Proof.
    intro N. assert (X : exists x y z, (orient3 x y z (pts' p) < 0)%Q /\ forall v, cls3 (pts' a) (pts' b) (pts' c) (pts' d) v -> (0 <= orient3 x y z v)%Q).
    { destruct (Qlt_le_dec (orient3 (pts' a) (pts' b) (pts' c) (pts' p)) 0) as [H1|H1]; [do 3 eexists; split; [exact H1|now intros v [K _]]|].
      destruct (Qlt_le_dec (orient3 (pts' a) (pts' d) (pts' b) (pts' p)) 0) as [H2|H2]; [do 3 eexists; split; [exact H2|now intros v [_ [K _]]]|].
      destruct (Qlt_le_dec (orient3 (pts' a) (pts' c) (pts' d) (pts' p)) 0) as [H3|H3]; [do 3 eexists; split; [exact H3|now intros v [_ [_ [K _]]]]|].
      destruct (Qlt_le_dec (orient3 (pts' b) (pts' d) (pts' c) (pts' p)) 0) as [H4|H4]; [do 3 eexists; split; [exact H4|now intros v [_ [_ [_ K]]]]|].
      exfalso. apply N. unfold cls3. auto. }
    destruct X as [x [y [z [X1 X2]]]]. destruct (stays_negative _ (orient3 x y z r) X1) as [e0 [E1 [E2 E3]]]. exists e0. split; [exact E1|]. split; [exact E2|].
    intros e P0 P1 K. apply X2 in K. rewrite o3_mix in K. specialize (E3 e P0 P1). lra.
  Qed.
  Lemma leave_others r : exists e0, (0 < e0)%Q /\ (e0 < 1)%Q /\ forall i a b c d e, tet s i a b c d -> (0 < e)%Q -> (e <= e0)%Q ->
    cls3 (pts' a) (pts' b) (pts' c) (pts' d) (mix3 e (pts' p) r) -> p = a \/ p = b \/ p = c \/ p = d.
  Proof.
    assert (X : forall l, incl l (tetras s) -> exists e0, (0 < e0)%Q /\ (e0 < 1)%Q /\ forall i t a b c d e, In (i, t) l -> points_of t = [a; b; c; d] ->
      (0 < e)%Q -> (e <= e0)%Q -> cls3 (pts' a) (pts' b) (pts' c) (pts' d) (mix3 e (pts' p) r) -> p = a \/ p = b \/ p = c \/ p = d).
    { induction l as [|[i t] l IH]; intro H.
      - exists (1#2)%Q. split; [reflexivity|]. split; [reflexivity|]. intros ? ? ? ? ? ? ? [].
      - destruct IH as [e1 [A1 [A2 A3]]]; [intros x Hx; apply H; now right|].
        pose proof (H (i, t) (or_introl eq_refl)) as Ht.
        assert (Y : exists e2, (0 < e2)%Q /\ (e2 < 1)%Q /\ forall a b c d e, points_of t = [a; b; c; d] -> (0 < e)%Q -> (e <= e2)%Q ->
          cls3 (pts' a) (pts' b) (pts' c) (pts' d) (mix3 e (pts' p) r) -> p = a \/ p = b \/ p = c \/ p = d).
        { destruct (in_dec Nat.eq_dec p (points_of t)) as [IN|NI].
          - exists (1#2)%Q. split; [reflexivity|]. split; [reflexivity|]. intros a b c d e E _ _ _. rewrite E in IN. cbn in IN. intuition.
          - destruct (points_of t) as [|a [|b [|c [|d [|? ?]]]]] eqn:E; try (exists (1#2)%Q; split; [reflexivity|]; split; [reflexivity|]; intros; discriminate).
            assert (T : tet s i a b c d) by (exists t; split; [exact Ht|rewrite E; apply even4_refl]).
            destruct (leave_tetra a b c d r) as [e2 [B1 [B2 B3]]].
            + intro K. apply NI. pose proof (t3_corner _ _ _ L i a b c d p T ltac:(lia) K) as Z. cbn. intuition.
            + exists e2. split; [exact B1|]. split; [exact B2|]. intros a' b' c' d' e E' P0 P1 K. injection E' as <- <- <- <-. exfalso. exact (B3 e P0 P1 K). }
        destruct Y as [e2 [B1 [B2 B3]]]. exists (Qmin e1 e2).
        pose proof (Q.le_min_l e1 e2). pose proof (Q.le_min_r e1 e2). split; [now apply Q.min_glb_lt|]. split; [lra|].
        intros i' t' a b c d e [E|IN] ET P0 P1; [injection E as <- <-; apply (B3 a b c d e ET P0); lra|]. apply (A3 i' t' a b c d e IN ET P0). lra. }
    destruct (X (tetras s) (incl_refl _)) as [e0 [A1 [A2 A3]]]. exists e0. split; [exact A1|]. split; [exact A2|].
    intros i a b c d e [t [Ht R]] P0 P1 K. destruct (even4_form _ _ _ _ _ R) as [x [y [z [w E]]]]. rewrite E in R.
    pose proof (A3 i t x y z w e Ht E P0 P1 (even_cls pts' _ _ _ _ _ _ _ _ _ R K)) as Z.
    apply even4_sym in R. pose proof (proj2 (even4_in _ _ _ _ _ p R)) as Z'. cbn in Z'. intuition.
  Qed.
  Lemma star_cone3' r : exists i a b c, tet s i p a b c /\ (0 <= orient3 (pts' p) r (pts' b) (pts' c))%Q /\
    (0 <= orient3 (pts' p) (pts' a) r (pts' c))%Q /\ (0 <= orient3 (pts' p) (pts' a) (pts' b) r)%Q.
  Proof.
    destruct (leave_others r) as [e1 [A1 [A2 A3]]].
    pose proof (g3_inside _ _ G p inner) as IN.
    assert (Y : exists e, (0 < e)%Q /\ (e <= e1)%Q /\ cls3 (pts' 0) (pts' 1) (pts' 2) (pts' 3) (mix3 e (pts' p) r)).
    { destruct (ins3_open _ _ _ _ _ r IN) as [e2 [B1 [B2 B3]]].
      exists (Qmin e1 e2). pose proof (Q.le_min_l e1 e2) as M1. pose proof (Q.le_min_r e1 e2) as M2.
      assert (P0 : (0 < Qmin e1 e2)%Q) by now apply Q.min_glb_lt. split; [exact P0|]. split; [exact M1|].
      assert (MX : forall x y z, (0 < orient3 x y z (pts' p))%Q -> (0 < orient3 x y z (mix3 e2 (pts' p) r))%Q -> (0 <= orient3 x y z (mix3 (Qmin e1 e2) (pts' p) r))%Q).
      { intros x y z H1 H2. rewrite o3_mix in *. set (m := Qmin e1 e2) in *.
        assert (Z : ((1 - m) * orient3 x y z (pts' p) + m * orient3 x y z r == (m / e2) * ((1 - e2) * orient3 x y z (pts' p) + e2 * orient3 x y z r) + (1 - m / e2) * orient3 x y z (pts' p))%Q) by (field; lra).
        rewrite Z. assert (Q1 : (0 < m / e2)%Q) by (apply Qlt_shift_div_l; lra). assert (Q2 : (m / e2 <= 1)%Q) by (apply Qle_shift_div_r; lra).
        pose proof (qmul_pos _ _ Q1 H2). pose proof (qmul_nonneg (1 - m / e2) _ ltac:(lra) ltac:(apply Qlt_le_weak; exact H1)). lra. }
      destruct IN as [I1 [I2 [I3 I4]]]. destruct B3 as [J1 [J2 [J3 J4]]]. unfold cls3. auto. }
    destruct Y as [e [P0 [P1 CL]]]. destruct (t3_cover _ _ _ L _ CL) as [i [a [b [c [d [T K]]]]]].
    assert (Z : exists a b c, tet s i p a b c /\ cls3 (pts' p) (pts' a) (pts' b) (pts' c) (mix3 e (pts' p) r)).
    { assert (EV : forall x y z, even4 [a; b; c; d] [p; x; y; z] -> exists a b c, tet s i p a b c /\ cls3 (pts' p) (pts' a) (pts' b) (pts' c) (mix3 e (pts' p) r)).
      { intros x y z E. exists x, y, z. split; [exact (tet_even _ _ _ _ _ _ _ _ _ _ T E)|exact (even_cls pts' _ _ _ _ _ _ _ _ _ E K)]. }
      destruct (A3 i a b c d e T P0 P1 K) as [X|[X|[X|X]]]; subst.
      - apply (EV b c d). even.
      - apply (EV a d c). even.
      - apply (EV a b d). even.
      - apply (EV c b a). even. }
    clear a b c d T K. destruct Z as [a [b [c [T [K1 [K2 [K3 K4]]]]]]]. exists i, a, b, c. split; [exact T|].
    assert (E1 : (orient3 (pts' p) (pts' a) (pts' b) (mix3 e (pts' p) r) == e * orient3 (pts' p) (pts' a) (pts' b) r)%Q).
    { rewrite o3_mix. pose proof (proj1 (o3_same (pts' p) (pts' a) (pts' b))) as Z. rewrite Z. ring. }
    assert (E2 : (orient3 (pts' p) (pts' c) (pts' a) (mix3 e (pts' p) r) == e * orient3 (pts' p) (pts' c) (pts' a) r)%Q).
    { rewrite o3_mix. pose proof (proj1 (o3_same (pts' p) (pts' c) (pts' a))) as Z. rewrite Z. ring. }
    assert (E3 : (orient3 (pts' p) (pts' b) (pts' c) (mix3 e (pts' p) r) == e * orient3 (pts' p) (pts' b) (pts' c) r)%Q).
    { rewrite o3_mix. pose proof (proj1 (o3_same (pts' p) (pts' b) (pts' c))) as Z. rewrite Z. ring. }
    rewrite E1 in K1. rewrite E2 in K2. rewrite E3 in K3. apply qmul_nonneg_inv in K1; [|exact P0]. apply qmul_nonneg_inv in K2; [|exact P0]. apply qmul_nonneg_inv in K3; [|exact P0].
    assert (R3 : (orient3 (pts' p) r (pts' b) (pts' c) == orient3 (pts' p) (pts' b) (pts' c) r)%Q).
    { generalize (pts' p) (pts' b) (pts' c). clear. intros x y z. coords3. ring. }
    assert (R2 : (orient3 (pts' p) (pts' a) r (pts' c) == orient3 (pts' p) (pts' c) (pts' a) r)%Q).
    { generalize (pts' p) (pts' a) (pts' c). clear. intros x y z. coords3. ring. }
    rewrite R3, R2. auto.
  Qed.

  Section Region.
    Variable F : point3 -> point3.
    Variable c0 : Q.
    Hypothesis c0_pos : (0 < c0)%Q.
    Hypothesis F_orient : forall a b c d, (orient3 (F a) (F b) (F c) (F d) == c0 * orient3 a b c d)%Q.
    Hypothesis F_pts : forall v, v < num_points s -> pts' v = F (pts v).
    Variable site : point3 -> Prop.
    Hypothesis free : forall a b d o r, is_tetra s p a b d -> circumscribed3 (shape3 pts p a b d) o -> site r -> (dist2_3 o (pts p) <= dist2_3 o r)%Q.
    Hypothesis strict : forall q i j a b c o, tet s i p q a b -> tet s j p q b c -> circumscribed3 (shape3 pts p q a b) o -> (dist2_3 o (pts p) < dist2_3 o (pts c))%Q.
    Hypothesis near : forall q, neighbour s p q -> site (pts q).

    (** Every direction is in the cone of a tetrahedron. *)
    Lemma star_cone3 r : exists i a b c, tet s i p a b c /\ (0 <= orient3 (pts p) r (pts b) (pts c))%Q /\
      (0 <= orient3 (pts p) (pts a) r (pts c))%Q /\ (0 <= orient3 (pts p) (pts a) (pts b) r)%Q.
    Proof.
      destruct (star_cone3' (F r)) as [i [a [b [c [T [K1 [K2 K3]]]]]]]. destruct (t3_lts _ _ _ L _ _ _ _ _ T) as [Lp [La [Lb Lc]]].
      rewrite !F_pts in K1, K2, K3 by assumption. rewrite F_orient in K1, K2, K3. exists i, a, b, c. split; [exact T|].
      repeat split; eapply qmul_nonneg_inv; eauto.
    Qed.
    Lemma tet_neighbours i a b c : tet s i p a b c -> neighbour s p a /\ neighbour s p b /\ neighbour s p c.
    Proof.
      intro T. destruct (tet_nodup _ _ _ _ _ _ I T) as [N1 [N2 [N3 _]]]. destruct T as [t [Ht R]].
      assert (X : forall q, p <> q -> q = p \/ q = a \/ q = b \/ q = c -> neighbour s p q).
      { intros q N H. split; [congruence|]. exists i, t. split; [exact Ht|]. split; apply (even4_in _ _ _ _ _ _ R); tauto. }
      repeat split; (apply X; [assumption|tauto]) || (exfalso; congruence) || idtac.
      all: apply X; tauto.
    Qed.
    (** The neighbours decide. *)
    Lemma neighbours_decide3 x : (forall q, neighbour s p q -> dist2_3 x (pts p) < dist2_3 x (pts q))%Q ->
      forall r, site r -> (0 < dist2_3 r (pts p))%Q -> (dist2_3 x (pts p) < dist2_3 x r)%Q.
    Proof.
      intros H r Hr A. destruct (star_cone3 r) as [i [a [b [c [T [C1 [C2 C3]]]]]]]. destruct (tet_neighbours i a b c T) as [Na [Nb Nc]].
      assert (IT : is_tetra s p a b c) by (apply (is_tetra_tet s p a b c I); eauto).
      pose proof (ccw _ _ _ _ _ T) as P0.
      assert (CC : exists v, circumscribed3 (shape3 pts p a b c) v) by (destruct T as [t [Ht R]]; exists (voronoi_point3 pts t); exact (center_ok3 i t p a b c Ht R)).
      destruct CC as [v CC]. pose proof (free a b c v r IT CC Hr) as FR. destruct (circum_dot3 _ _ _ _ _ CC) as [D1 [D2 D3]].
      pose proof (H a Na) as Ha. pose proof (H b Nb) as Hb. pose proof (H c Nc) as Hc.
      pose proof (dist_dot3 (pts p) x (pts a)). pose proof (dist_dot3 (pts p) x (pts b)). pose proof (dist_dot3 (pts p) x (pts c)).
      pose proof (dist_dot3 (pts p) x r). pose proof (dist_dot3 (pts p) v r).
      pose proof (cone_dot3 (pts p) (pts a) (pts b) (pts c) r x) as K1. pose proof (cone_dot3 (pts p) (pts a) (pts b) (pts c) r v) as K2.
      pose proof (cone_dot3 (pts p) (pts a) (pts b) (pts c) r r) as K3.
      assert (RR : (dotp3 (pts p) r r == dist2_3 r (pts p))%Q) by reflexivity.
      rewrite (dotp3_sym _ (pts a) x), (dotp3_sym _ (pts b) x), (dotp3_sym _ (pts c) x), (dotp3_sym _ r x) in K1.
      rewrite (dotp3_sym _ (pts a) v), (dotp3_sym _ (pts b) v), (dotp3_sym _ (pts c) v), (dotp3_sym _ r v) in K2.
      set (o1 := orient3 (pts p) r (pts b) (pts c)) in *. set (o2 := orient3 (pts p) (pts a) r (pts c)) in *. set (o3 := orient3 (pts p) (pts a) (pts b) r) in *.
      set (g1 := (dotp3 (pts p) v (pts a) - dotp3 (pts p) x (pts a))%Q). set (g2 := (dotp3 (pts p) v (pts b) - dotp3 (pts p) x (pts b))%Q).
      set (g3 := (dotp3 (pts p) v (pts c) - dotp3 (pts p) x (pts c))%Q).
      assert (G1 : (0 < g1)%Q) by (unfold g1; lra). assert (G2 : (0 < g2)%Q) by (unfold g2; lra). assert (G3 : (0 < g3)%Q) by (unfold g3; lra).
      assert (K4 : (orient3 (pts p) (pts a) (pts b) (pts c) * (dotp3 (pts p) v r - dotp3 (pts p) x r) == o1 * g1 + o2 * g2 + o3 * g3)%Q) by (unfold g1, g2, g3; lra).
      pose proof (qmul_nonneg _ _ C1 (Qlt_le_weak _ _ G1)) as M1. pose proof (qmul_nonneg _ _ C2 (Qlt_le_weak _ _ G2)) as M2. pose proof (qmul_nonneg _ _ C3 (Qlt_le_weak _ _ G3)) as M3.
      assert (POS : (0 < o1 * g1 + o2 * g2 + o3 * g3)%Q).
      { destruct (Qlt_le_dec 0 o1) as [P1|Z1]; [pose proof (qmul_pos _ _ P1 G1); lra|].
        destruct (Qlt_le_dec 0 o2) as [P2|Z2]; [pose proof (qmul_pos _ _ P2 G2); lra|].
        destruct (Qlt_le_dec 0 o3) as [P3|Z3]; [pose proof (qmul_pos _ _ P3 G3); lra|].
        exfalso. assert (E1 : (o1 == 0)%Q) by lra. assert (E2 : (o2 == 0)%Q) by lra. assert (E3 : (o3 == 0)%Q) by lra.
        rewrite E1, E2, E3, RR in K3. pose proof (qmul_pos _ _ P0 A). lra. }
      rewrite <- K4 in POS. apply qmul_pos_inv in POS; [|exact P0]. lra.
    Qed.

    Lemma ring_center q f v : p <> q -> run_face q f -> In v (polygon f) -> exists k a b, k < n q /\ tet s (fst (item q k)) p q a b /\ v = vp q k.
    Proof.
      intros N [_ [_ [ring [PE [L3 [OR PF]]]]]] H. rewrite PF in H. apply in_map_iff in H. destruct H as [k [E H]].
      destruct (ring_bounds3 q ring PE) as [_ [_ [IN _]]]. apply IN in H. destruct (edge_ex3 pts' s p q G inner N k H) as [[a b] X]. exists k, a, b. auto.
    Qed.
    Lemma face_plane q f v : p <> q -> run_face q f -> In v (polygon f) -> (2 * dotp3 (pts p) v (pts q) == dotp3 (pts p) (pts q) (pts q))%Q.
    Proof.
      intros N RF H. destruct (ring_center q f v N RF H) as [k [a [b [Hk [T ->]]]]]. pose proof (tet_center q k a b Hk T) as CC.
      exact (proj1 (circum_dot3 _ _ _ _ _ CC)).
    Qed.
    Theorem contains_ok3 c : new_cell3 C boundary pts outer cell_map hash_set s p = Some c ->
      forall x, cell_contains3 c x = true <-> forall r, site r -> (0 < dist2_3 r (pts p))%Q -> (dist2_3 x (pts p) < dist2_3 x r)%Q.
    Proof.
      intros E0 x. destruct new_cell_run3 as [c' [qs [E [_ [_ [_ [_ [_ [N1 [N2 FF]]]]]]]]]]. rewrite E0 in E. injection E as <-.
      assert (LTB : forall a b, Qltb a b = true <-> (a < b)%Q).
      { intros a b. unfold Qltb. rewrite negb_true_iff. split; intro H.
        - apply Qnot_le_lt. intro Z. apply Qle_bool_iff in Z. congruence.
        - apply not_true_iff_false. intro Z. apply Qle_bool_iff in Z. lra. }
      assert (ONE : forall q f, neighbour s p q -> run_face q f ->
        (dot3 (normal3 f) (sub3 x (nth 0 (polygon f) (P3 0 0 0))) < 0)%Q <-> (dist2_3 x (pts p) < dist2_3 x (pts q))%Q).
      { intros q f NB RF. assert (N : p <> q) by (destruct NB; congruence).
        assert (IN : In (nth 0 (polygon f) (P3 0 0 0)) (polygon f)).
        { apply nth_In. destruct RF as [_ [_ [ring [_ [L3 [_ PF]]]]]]. rewrite PF, map_length. lia. }
        pose proof (face_plane q f _ N RF IN) as PL. destruct RF as [_ [[_ NF _] _]]. rewrite NF. set (v := nth 0 (polygon f) (P3 0 0 0)) in *.
        pose proof (dist_dot3 (pts p) x (pts q)) as DD.
        assert (Z : (dot3 (sub3 (pts q) (pts p)) (sub3 x v) == dotp3 (pts p) x (pts q) - dotp3 (pts p) v (pts q))%Q) by (unfold dotp3, dot3, sub3; cbn; ring).
        split; intro; lra. }
      unfold cell_contains3. rewrite forallb_forall. split.
      - intros H. apply neighbours_decide3. intros q Hq. destruct (Forall2_in_l _ _ _ q FF) as [f [F1 F2]]; [now apply N2|].
        apply (ONE q f Hq F2). apply LTB. now apply H.
      - intros H f Hf. apply LTB. destruct (Forall2_in_r _ _ _ _ FF Hf) as [q [Q1 Q2]]. apply N2 in Q1. apply (ONE q f Q1 Q2). apply H; [now apply near|].
        apply neighbour_tet in Q1. destruct Q1 as [_ [i [a [b T]]]]. exact (orient3_away _ _ _ _ (ccw _ _ _ _ _ T)).
    Qed.

    (** *** The faces *)
    Lemma succ_sign3 q k l a b c : k < n q -> l < n q -> edge3 s p q k a b -> edge3 s p q l b c ->
      exists m, (0 < m)%Q /\ forall x, (2 * dotp3 (pts p) x (pts q) == dotp3 (pts p) (pts q) (pts q))%Q ->
        (turn3 (sub3 (pts q) (pts p)) x (vp q k) (vp q l) == m * (dist2_3 x (pts b) - dist2_3 x (pts p)))%Q.
    Proof.
      intros Hk Hl E1 E2. pose proof (tet_center q k a b Hk E1) as C1. pose proof (tet_center q l b c Hl E2) as C2.
      apply (bisector3 (pts p) (pts q) (pts a) (pts b) (pts c)); auto; [exact (ccw _ _ _ _ _ E2)|]. exact (strict _ _ _ _ _ _ _ E1 E2 C1).
    Qed.
    Lemma turn3_flip nn x a b : (turn3 nn x b a == - turn3 nn x a b)%Q.
    Proof. unfold turn3, volume6, triple, add3. cbn. ring. Qed.
    Lemma window_signs3 q ring : p <> q -> Permutation ring (seq 0 (n q)) -> turned_ring3 q ring -> exists sg, (sg == 1 \/ sg == -1)%Q /\
      (forall i j, In (i, j) (around ring) -> exists b m, (0 < m)%Q /\ neighbour s p b /\
         forall x, (2 * dotp3 (pts p) x (pts q) == dotp3 (pts p) (pts q) (pts q))%Q ->
           (turn3 (sub3 (pts q) (pts p)) x (vp q i) (vp q j) == sg * (m * (dist2_3 x (pts b) - dist2_3 x (pts p))))%Q) /\
      (forall k l a b c, k < n q -> l < n q -> edge3 s p q k a b -> edge3 s p q l b c -> exists i j m, In (i, j) (around ring) /\ (0 < m)%Q /\
         forall x, (2 * dotp3 (pts p) x (pts q) == dotp3 (pts p) (pts q) (pts q))%Q ->
           (turn3 (sub3 (pts q) (pts p)) x (vp q i) (vp q j) == sg * (m * (dist2_3 x (pts b) - dist2_3 x (pts p))))%Q).
    Proof.
      intros N PE OR. destruct (ring_bounds3 q ring PE) as [_ [_ [_ [LT [FST SND]]]]].
      assert (NB : forall k a b, edge3 s p q k a b -> neighbour s p b) by (intros k a b E; exact (proj2 (proj2 (tet_neighbours _ _ _ _ E)))).
      destruct OR as [OR|OR].
      - exists 1%Q. split; [left; reflexivity|]. split.
        + intros i j H. destruct (OR i j H) as [Hi [Hj [a [b [c [E1 E2]]]]]]. destruct (succ_sign3 q i j a b c Hi Hj E1 E2) as [m [M1 M2]].
          exists b, m. split; [exact M1|]. split; [eauto|]. intros x X. rewrite (M2 x X). ring.
        + intros k l a b c Hk Hl E1 E2. destruct (FST k Hk) as [j Hj].
          rewrite (succ_fun3 pts' s p q G inner N k j l (OR k j Hj)) in Hj by (split; [exact Hk|split; [exact Hl|exists a, b, c; auto]]).
          destruct (succ_sign3 q k l a b c Hk Hl E1 E2) as [m [M1 M2]]. exists k, l, m. split; [exact Hj|]. split; [exact M1|]. intros x X. rewrite (M2 x X). ring.
      - exists (-1)%Q. split; [right; reflexivity|]. split.
        + intros i j H. destruct (OR i j H) as [Hj [Hi [a [b [c [E1 E2]]]]]]. destruct (succ_sign3 q j i a b c Hj Hi E1 E2) as [m [M1 M2]].
          exists b, m. split; [exact M1|]. split; [eauto|]. intros x X. rewrite turn3_flip, (M2 x X). ring.
        + intros k l a b c Hk Hl E1 E2. destruct (SND k Hk) as [j Hj].
          rewrite (succ_fun3 pts' s p q G inner N k j l (OR j k Hj)) in Hj by (split; [exact Hk|split; [exact Hl|exists a, b, c; auto]]).
          destruct (succ_sign3 q k l a b c Hk Hl E1 E2) as [m [M1 M2]]. exists l, k, m. split; [exact Hj|]. split; [exact M1|]. intros x X. rewrite turn3_flip, (M2 x X). ring.
    Qed.
    Lemma normal_pos q : neighbour s p q -> (0 < dot3 (sub3 (pts q) (pts p)) (sub3 (pts q) (pts p)))%Q.
    Proof. intro NB. apply neighbour_tet in NB. destruct NB as [_ [i [a [b T]]]]. exact (orient3_away _ _ _ _ (ccw _ _ _ _ _ T)). Qed.
    Lemma face_flat q f : neighbour s p q -> run_face q f -> forall a b, In a (polygon f) -> In b (polygon f) -> (dot3 (normal3 f) (sub3 a b) == 0)%Q.
    Proof.
      intros NB RF a b Ha Hb. assert (N : p <> q) by (destruct NB; congruence).
      pose proof (face_plane q f a N RF Ha) as A. pose proof (face_plane q f b N RF Hb) as B. destruct RF as [_ [[_ NF _] _]]. rewrite NF.
      assert (Z : (dot3 (sub3 (pts q) (pts p)) (sub3 a b) == dotp3 (pts p) a (pts q) - dotp3 (pts p) b (pts q))%Q) by (unfold dotp3, dot3, sub3; cbn; ring). lra.
    Qed.
    Theorem face_proper q f : neighbour s p q -> run_face q f -> proper_face f.
    Proof.
      intros NB RF. assert (N : p <> q) by (destruct NB; congruence). pose proof (face_flat q f NB RF) as FL.
      pose proof (fun v => face_plane q f v N RF) as PL. pose proof (fun v => ring_center q f v N RF) as RC.
      pose proof RF as [_ [[_ NF _] [ring [PE [L3 [OR PF]]]]]].
      destruct (window_signs3 q ring N PE OR) as [sg [SG [W1 W2]]].
      assert (LEN : 3 <= length (polygon f)) by now rewrite PF, map_length.
      assert (CV : forall x w, In x (polygon f) -> In w (around (polygon f)) -> (0 <= sg * turn3 (normal3 f) x (fst w) (snd w))%Q).
      { intros x w X W. rewrite NF. rewrite PF, (around_map (vp q) ring) in W. apply in_map_iff in W. destruct W as [[i j] [<- W]]. cbn [fst snd].
        destruct (W1 i j W) as [b [m [M1 [Nb M2]]]]. rewrite (M2 x (PL x X)).
        destruct (RC x X) as [k [a' [b' [Hk [T ->]]]]]. pose proof (tet_center q k a' b' Hk T) as CC.
        pose proof (free q a' b' _ (pts b) (proj2 (is_tetra_pq q a' b') (ex_intro _ _ (or_introl T))) CC (near b Nb)) as FR.
        pose proof (qmul_nonneg m (dist2_3 (vp q k) (pts b) - dist2_3 (vp q k) (pts p)) ltac:(lra) ltac:(cbn beta in *; lra)) as M3. cbn beta in M3.
        destruct SG as [SG|SG]; rewrite SG; lra. }
      assert (AR : forall x, (face_area f * length3 (normal3 f) = 1/2 * Q2R (sg * fold_right Qplus 0%Q (map (fun w => turn3 (normal3 f) x (fst w) (snd w)) (around (polygon f))))%Q)%R).
      { intro x. unfold face_area. rewrite (polygon_area_abs (normal3 f) (polygon f) FL ltac:(lia)). set (r := nth 0 (polygon f) (P3 0 0 0)).
        assert (R : In r (polygon f)) by (apply nth_In; lia). rewrite Q2R_mult. replace (Q2R (1#2)) with (1/2)%R by (unfold Q2R; cbn; field). f_equal.
        apply Qeq_eqR. rewrite (qsum_fold (map (fun w => turn3 (normal3 f) x (fst w) (snd w)) (around (polygon f)))). pose proof (turn3_sum (normal3 f) x r (polygon f)) as TS. rewrite TS. rewrite <- (qsum_scale sg), map_map. apply qsum_ext. intros w W. pose proof (CV r w R W) as K.
        destruct SG as [SG|SG]; rewrite SG in K |- *; [rewrite Qabs_pos by lra|rewrite Qabs_neg by lra]; ring. }
      constructor; [exact FL|exists sg; auto|].
      (* the area *)
      pose proof (normal_pos q NB) as NP. rewrite <- NF in NP. apply length3_pos in NP.
      destruct ring as [|k0 ring']; [cbn in L3; lia|]. remember (k0 :: ring') as ring eqn:ER.
      assert (X : In (vp q k0) (polygon f)) by (rewrite PF, ER; now left).
      assert (Hk0 : k0 < n q) by (apply (ring_bounds3 q ring PE); rewrite ER; now left).
      destruct (succ_ex3 pts' s p q G inner N k0 Hk0) as [l [_ [Hl [a [b [c [E1 E2]]]]]]].
      destruct (succ_ex3 pts' s p q G inner N l Hl) as [m [_ [Hm [b' [c' [d [E3 E4]]]]]]].
      destruct (tet_unique pts' s p q G N _ _ _ _ _ E2 E3) as [<- <-].
      destruct (W2 l m b c d Hl Hm E3 E4) as [i [j [mm [M0 [M1 M2]]]]].
      pose proof (strict _ _ _ _ _ _ _ E1 E2 (tet_center q k0 a b Hk0 E1)) as ST.
      assert (PO : (0 < sg * turn3 (normal3 f) (vp q k0) (vp q i) (vp q j))%Q).
      { rewrite NF, (M2 _ (PL _ X)). cbn beta in *. pose proof (qmul_pos mm _ M1 (proj1 (Qlt_minus_iff _ _) ST)) as Z. unfold Qminus. destruct SG as [SG|SG]; rewrite SG; lra. }
      assert (SUM : (0 < sg * fold_right Qplus 0 (map (fun w => turn3 (normal3 f) (vp q k0) (fst w) (snd w)) (around (polygon f))))%Q).
      { rewrite qsum_fold, <- (qsum_scale sg), map_map.
        assert (IN : In (vp q i, vp q j) (around (polygon f))) by (rewrite PF, (around_map (vp q) ring); apply in_map_iff; exists (i, j); auto).
        assert (NN : forall w, In w (around (polygon f)) -> (0 <= sg * turn3 (normal3 f) (vp q k0) (fst w) (snd w))%Q) by (intros; now apply CV).
        apply (qsum_pos (fun w => sg * turn3 (normal3 f) (vp q k0) (fst w) (snd w))%Q _ _ IN); [exact PO|exact NN]. }
      apply Qlt_Rlt in SUM. rewrite RMicromega.Q2R_0 in SUM. specialize (AR (vp q k0)).
      apply (Rmult_lt_reg_r (length3 (normal3 f))); [exact NP|]. rewrite AR. Lra.lra.
    Qed.
    (** *** The area from the tetrahedra around the line from [p] to [q] *)
    Lemma turns_by_ex q x i a b : p <> q -> tet s i p q a b -> exists h, turns_by pts s p q x b h.
    Proof.
      intros N T. destruct (tet_side3 pts' s p q G inner N _ _ _ T) as [j [c [_ [_ [_ [_ [T' _]]]]]]].
      pose proof T as [t [Ht R]]. pose proof T' as [t' [Ht' R']]. exists (turn3 (sub3 (pts q) (pts p)) x (voronoi_point3 pts t) (voronoi_point3 pts t')).
      intros i2 j2 a2 c2 v v' T2 T2' C2 C2'.
      destruct (tet_facet2 pts' s p q G inner _ _ _ _ _ T T2) as [_ <-]. destruct (tet_facet pts' s p q G _ _ _ _ _ T' T2') as [_ <-].
      pose proof (center_ok3 _ _ _ _ _ _ Ht R) as K. pose proof (center_ok3 _ _ _ _ _ _ Ht' R') as K'.
      exact (turn3_unique (shape3 pts p q a b) (shape3 pts p q b c) _ x _ _ _ _ (ccw _ _ _ _ _ T) (ccw _ _ _ _ _ T') K C2 K' C2').
    Qed.
    Lemma face_sum q f x r H : neighbour s p q -> run_face q f -> NoDup r -> (forall b, In b r <-> exists i a, tet s i p q a b) ->
      (forall b, In b r -> turns_by pts s p q x b (H b)) -> (face_area f * length3 (normal3 f) = 1/2 * Q2R (Qabs (qsum (map H r))))%R.
    Proof.
      intros NB RF ND IR HR. assert (N : p <> q) by (destruct NB; congruence).
      destruct (pf_convex _ (face_proper q f NB RF)) as [sg [SG [_ AR]]]. specialize (AR x).
      pose proof (pf_area _ (face_proper q f NB RF)) as AP. pose proof (length3_nonneg (normal3 f)) as LP.
      pose proof RF as [_ [[_ NF _] [ring [PE [L3 [OR PF]]]]]]. destruct (ring_bounds3 q ring PE) as [NDR [_ [IN [LT _]]]].
      destruct (finite_choice (0, 0) (fun k ab => edge3 s p q k (fst ab) (snd ab)) (n q) (edge_ex3 pts' s p q G inner N)) as [g Hg].
      assert (TC : forall k l a b c, k < n q -> l < n q -> edge3 s p q k a b -> edge3 s p q l b c -> (turn3 (normal3 f) x (vp q k) (vp q l) == H b)%Q).
      { intros k l a b c Hk Hl E1 E2. rewrite NF. symmetry. apply (HR b) with (i := fst (item q k)) (j := fst (item q l)) (a := a) (c := c); auto.
        - apply IR. exists (fst (item q k)), a. exact E1.
        - now apply tet_center.
        - now apply tet_center. }
      destruct (Cyclic_Proofs.around_once ring) as [A1 A2].
      rewrite qsum_fold, PF, (around_map (vp q) ring), map_map in AR. cbn [fst snd] in AR.
      set (S0 := qsum (map (fun w => turn3 (normal3 f) x (vp q (fst w)) (vp q (snd w))) (around ring))) in *.
      assert (E : (S0 == qsum (map H r) \/ S0 == - qsum (map H r))%Q).
      { destruct OR as [OR|OR]; [left|right].
        - transitivity (qsum (map (fun w => H (fst (g (snd w)))) (around ring))).
          + apply qsum_ext. intros [i j] W. cbn [fst snd]. destruct (OR i j W) as [Hi [Hj [a [b [c [E1 E2]]]]]]. rewrite (TC i j a b c Hi Hj E1 E2).
            destruct (tet_unique pts' s p q G N _ _ _ _ _ (Hg j Hj) E2) as [-> _]. reflexivity.
          + rewrite <- (map_map snd (fun k => H (fst (g k)))). transitivity (qsum (map (fun k => H (fst (g k))) ring)); [apply qsum_perm, Permutation_map, A2|].
            rewrite <- (map_map (fun k => fst (g k)) H). apply qsum_perm, Permutation_map, NoDup_Permutation; [|exact ND|].
            * apply nodup_map_on; [exact NDR|]. intros i j Hi Hj E. apply IN in Hi. apply IN in Hj. apply (item_eq3 pts' s p q G inner); auto.
              pose proof (Hg i Hi) as A. pose proof (Hg j Hj) as B. unfold edge3 in A, B. rewrite E in A. exact (proj1 (tet_facet pts' s p q G _ _ _ _ _ A B)).
            * intro b. rewrite IR, in_map_iff. split.
              { intros [k [E Hk]]. apply IN in Hk. pose proof (Hg k Hk) as A. unfold edge3 in A. rewrite E in A. destruct (edge_pred pts' s p q G inner N _ _ _ A) as [j [c X]]. eauto. }
              { intros [i [a T]]. destruct (tet_side3 pts' s p q G inner N _ _ _ T) as [j [c [_ [_ [_ [_ [T' _]]]]]]]. destruct (edge_idx3 s p q _ _ _ T') as [k [Hk Ek]].
                exists k. split; [|now apply IN]. pose proof (Hg k Hk) as A. unfold edge3 in A. cbn beta in Ek, A. rewrite Ek in A. now destruct (tet_unique pts' s p q G N _ _ _ _ _ A T'). }
        - rewrite <- (qsum_opp (map H r)), map_map. transitivity (qsum (map (fun w => - H (snd (g (snd w))))%Q (around ring))).
          + apply qsum_ext. intros [i j] W. cbn [fst snd]. destruct (OR i j W) as [Hj [Hi [a [b [c [E1 E2]]]]]]. rewrite turn3_flip, (TC j i a b c Hj Hi E1 E2).
            destruct (tet_unique pts' s p q G N _ _ _ _ _ (Hg j Hj) E1) as [_ ->]. reflexivity.
          + rewrite <- (map_map snd (fun k => - H (snd (g k)))%Q). transitivity (qsum (map (fun k => - H (snd (g k)))%Q ring)); [apply qsum_perm, Permutation_map, A2|].
            rewrite <- (map_map (fun k => snd (g k)) (fun b => - H b)%Q). apply qsum_perm, Permutation_map, NoDup_Permutation; [|exact ND|].
            * apply nodup_map_on; [exact NDR|]. intros i j Hi Hj E. apply IN in Hi. apply IN in Hj. apply (item_eq3 pts' s p q G inner); auto.
              pose proof (Hg i Hi) as A. pose proof (Hg j Hj) as B. unfold edge3 in A, B. rewrite E in A. exact (proj1 (tet_facet2 pts' s p q G inner _ _ _ _ _ A B)).
            * intro b. rewrite IR, in_map_iff. split.
              { intros [k [E Hk]]. apply IN in Hk. pose proof (Hg k Hk) as A. unfold edge3 in A. rewrite E in A. eauto. }
              { intros [i [a T]]. destruct (edge_idx3 s p q _ _ _ T) as [k [Hk Ek]].
                exists k. split; [|now apply IN]. pose proof (Hg k Hk) as A. unfold edge3 in A. cbn beta in Ek, A. rewrite Ek in A. now destruct (tet_unique pts' s p q G N _ _ _ _ _ A T). } }
      assert (EA : (Qabs (qsum (map H r)) == Qabs S0)%Q) by (destruct E as [E|E]; rewrite E; [reflexivity|symmetry; apply Qabs_opp]).
      rewrite AR, (Qeq_eqR _ _ EA). f_equal.
      assert (NN : (0 <= Q2R (sg * S0))%R) by (pose proof (Rmult_le_pos _ _ (Rlt_le _ _ AP) LP); Lra.lra).
      rewrite <- RMicromega.Q2R_0 in NN. apply Rle_Qle in NN. apply Qeq_eqR.
      destruct SG as [SG|SG]; rewrite SG in NN |- *; [rewrite Qabs_pos by lra|rewrite Qabs_neg by lra]; ring.
    Qed.
    Theorem volume_ok3 c : new_cell3 C boundary pts outer cell_map hash_set s p = Some c ->
      volume_of_cell c /\ 4 <= length (cell_faces3 c) /\ forall f, In f (cell_faces3 c) -> proper_face f.
    Proof.
      intros E0. destruct new_cell_run3 as [c' [qs [E [_ [_ [EC [_ [_ [N1 [N2 FF]]]]]]]]]]. rewrite E0 in E. injection E as <-.
      assert (PF : forall f, In f (cell_faces3 c) -> proper_face f).
      { intros f Hf. destruct (Forall2_in_r _ _ _ _ FF Hf) as [q [Q1 Q2]]. apply N2 in Q1. exact (face_proper q f Q1 Q2). }
      assert (LEN : 4 <= length (cell_faces3 c)).
      { assert (LQ : length qs = length (cell_faces3 c)) by (clear - FF; induction FF; cbn; congruence). rewrite <- LQ.
        destruct (star_cone3 (pts p)) as [i [a [b [d [T _]]]]]. destruct (tet_neighbours _ _ _ _ T) as [NA _].
        destruct (face_run a NA) as [f [_ [_ [[_ _ [r [[R1 R2 R3] _]]] _]]]].
        change 4 with (Datatypes.S 3). transitivity (length (a :: r)); [cbn; lia|]. apply NoDup_incl_length.
        - constructor; [|exact R1]. intro H. destruct (Cyclic_Proofs.around_once r) as [A1 _]. rewrite <- A1 in H. apply in_map_iff in H. destruct H as [[u v] [E H]].
          cbn in E. subst u. apply or_introl with (B := In (v, a) (around r)), R3 in H. apply is_tetra_pq in H. destruct H as [j [H|H]]; apply (tet_nodup _ _ _ _ _ _ I) in H; intuition congruence.
        - intros x [<-|H]; [now apply N2|]. apply N2. destruct (Cyclic_Proofs.around_once r) as [A1 _]. rewrite <- A1 in H. apply in_map_iff in H. destruct H as [[u v] [E H]].
          cbn in E. subst u. apply or_introl with (B := In (v, x) (around r)), R3 in H. apply is_tetra_pq in H. destruct H as [j [H|H]]; apply tet_neighbours in H; tauto. }
      split; [|split; [exact LEN|exact PF]].
      assert (PY : forall f, In f (cell_faces3 c) -> (pyramid_volume (normal3 f) (center3 c) (polygon f) = 1/3 * face_area f * (1/2 * length3 (normal3 f)))%R /\
        (pyramid_volume (normal3 f) (center3 c) (polygon f) = Q2R (fan_volume (center3 c) (polygon f)))%R /\ (0 < length3 (normal3 f))%R).
      { intros f Hf. destruct (Forall2_in_r _ _ _ _ FF Hf) as [q [Q1 Q2]]. apply N2 in Q1. rewrite EC.
        pose proof (normal_pos q Q1) as NP. pose proof (face_flat q f Q1 Q2) as FL.
        assert (PL : forall v, In v (polygon f) -> (2 * dot3 (normal3 f) (sub3 v (pts p)) == dot3 (normal3 f) (normal3 f))%Q).
        { intros v Hv. assert (N : p <> q) by (destruct Q1; congruence). pose proof (face_plane q f v N Q2 Hv) as X. destruct Q2 as [_ [[_ NF _] _]]. rewrite NF.
          assert (Z : (dot3 (sub3 (pts q) (pts p)) (sub3 v (pts p)) == dotp3 (pts p) v (pts q))%Q) by (unfold dotp3, dot3, sub3; cbn; ring). rewrite Z. exact X. }
        destruct Q2 as [_ [[_ NF _] [ring [_ [L3 [_ PO]]]]]]. rewrite <- NF in NP.
        destruct (pyramid_ok (normal3 f) (pts p) (polygon f) NP FL) as [P1 P2]; [rewrite PO, map_length; lia|exact PL|].
        split; [exact P1|]. split; [exact P2|]. now apply length3_pos. }
      assert (V2 : (cell_volume3 c = sumR (map (fun f => 1/3 * face_area f * (1/2 * length3 (normal3 f))) (cell_faces3 c)))%R).
      { unfold cell_volume3. f_equal. apply map_ext_in. intros f Hf. apply PY, Hf. }
      constructor.
      - unfold cell_volume3. rewrite qsum_fold, Q2R_qsum, map_map. f_equal. apply map_ext_in. intros f Hf. apply PY, Hf.
      - exact V2.
      - rewrite V2. assert (POS : Forall (fun f => (0 < 1/3 * face_area f * (1/2 * length3 (normal3 f)))%R) (cell_faces3 c)).
        { apply Forall_forall. intros f Hf. pose proof (pf_area _ (PF f Hf)). destruct (PY f Hf) as [_ [_ X]]. apply Rmult_lt_0_compat; Lra.lra. }
        destruct (cell_faces3 c) as [|f fs]; [cbn in LEN; lia|]. clear - POS. inversion POS as [|? ? H POS']; subst. cbn.
        assert (0 <= fold_right Rplus 0 (map (fun f => 1/3 * face_area f * (1/2 * length3 (normal3 f))) fs))%R.
        { clear - POS'. induction POS' as [|g gs H _ IH]; cbn; [Lra.lra|]. cbn in *. Lra.lra. }
        cbn in *. Lra.lra.
    Qed.
  End Region.
End Cells.
