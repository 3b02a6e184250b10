(** Proofs for [Voronoi_Model]. *)
From Coq Require Import List Arith Lia QArith Qabs Lqa Setoid Bool Permutation.
From Verif Require Cyclic_Model Cyclic_Spec Cyclic_Proofs.
From Verif Require Import Geometry_Model Geometry_Spec Geometry_Proofs Circle2_Proofs Tiling2_Proofs Cone2_Proofs Delaunay_Model Delaunay_Spec
  DelaunayGlobal_Spec DelaunayBuild_Proofs DelaunaySurgery_Proofs Delaunay2_Proofs DelaunayGlobal2_Proofs Voronoi_Model Voronoi_Spec VoronoiRing_Proofs.
Import ListNotations.
Local Open Scope nat_scope.

Lemma map_option_map {A B D} (f : B -> option D) (g : A -> B) l : map_option f (map g l) = map_option (fun x => f (g x)) l.
Proof. induction l as [|a l IH]; cbn; [reflexivity|]. now rewrite IH. Qed.
Lemma map_option_forall {A B} (f : A -> option B) (R : A -> B -> Prop) l : (forall a, In a l -> exists b, f a = Some b /\ R a b) ->
  exists bs, map_option f l = Some bs /\ Forall2 R l bs.
Proof.
  induction l as [|a l IH]; intro H; [exists []; split; [reflexivity|constructor]|].
  destruct (H a (or_introl eq_refl)) as [b [E Rb]]. destruct IH as [bs [E' Rs]]; [intros; apply H; now right|].
  exists (b :: bs). cbn. rewrite E. cbn. rewrite E'. cbn. split; [reflexivity|now constructor].
Qed.
Lemma Forall2_NoDup {A B} (R : A -> B -> Prop) l m : Forall2 R l m -> NoDup l -> (forall x y z, In x l -> In y l -> R x z -> R y z -> x = y) -> NoDup m.
Proof.
  intro F. induction F as [|x z l m Hx F IH]; intros ND H; [constructor|]. inversion ND as [|? ? N1 N2]; subst.
  constructor; [|apply IH; auto; intros; eapply H; eauto; now right].
  intro Z. assert (X : exists y, In y l /\ R y z).
  { clear - F Z. induction F as [|x y l m Hx F IH]; [destruct Z|]. destruct Z as [->|Z]; [exists x; split; [now left|exact Hx]|].
    destruct (IH Z) as [w [W1 W2]]. exists w. split; [now right|exact W2]. }
  destruct X as [y [Y1 Y2]]. apply N1. now rewrite (H x y z (or_introl eq_refl) (or_intror Y1) Hx Y2).
Qed.
Lemma Forall2_in_r {A B} (R : A -> B -> Prop) l m z : Forall2 R l m -> In z m -> exists x, In x l /\ R x z.
Proof.
  intro F. induction F as [|x y l m Hx F IH]; intros []; [subst; exists x; split; [now left|exact Hx]|].
  destruct (IH H) as [w [W1 W2]]. exists w. split; [now right|exact W2].
Qed.
Lemma Forall2_in_l {A B} (R : A -> B -> Prop) l m x : Forall2 R l m -> In x l -> exists z, In z m /\ R x z.
Proof.
  intro F. induction F as [|a y l m Hx F IH]; intros []; [subst; exists y; split; [now left|exact Hx]|].
  destruct (IH H) as [w [W1 W2]]. exists w. split; [now right|exact W2].
Qed.
Lemma around_map {A B} (f : A -> B) l : Cyclic_Spec.around (map f l) = map (fun ij => (f (fst ij), f (snd ij))) (Cyclic_Spec.around l).
Proof.
  destruct l as [|a l]; [reflexivity|]. unfold Cyclic_Spec.around. cbn [map]. change [f a] with (map f [a]). rewrite <- map_app.
  change (f a :: map f l) with (map f (a :: l)). generalize (a :: l) (l ++ [a]). clear.
  induction l as [|x l IH]; intros m; destruct m as [|y m]; cbn; [reflexivity|reflexivity|reflexivity|]. now rewrite IH.
Qed.
Lemma NoDup_fst {A B} (l : list (A * B)) : NoDup (map fst l) -> NoDup l.
Proof. apply NoDup_map_inv. Qed.

Lemma turned_rot3 a b c l : turned a b c l <-> rot3 l a b c.
Proof. unfold turned, rot3. tauto. Qed.
Lemma is_triangle_tri s a b c : is_triangle s a b c <-> exists i, tri s i a b c.
Proof.
  unfold is_triangle, tri. split.
  - intros [i [t [H K]]]. exists i, t. rewrite <- turned_rot3. auto.
  - intros [i [t [H K]]]. exists i, t. rewrite turned_rot3. auto.
Qed.
Lemma circumscribed2_rot a b c o : circumscribed2 (T2 a b c) o -> circumscribed2 (T2 b c a) o.
Proof. unfold circumscribed2. cbn. intros [A B]. split; lra. Qed.

(** ** The region *)
Lemma circum_dot p a b v : circumscribed2 (T2 p a b) v -> (2 * dotp p v a == dotp p a a /\ 2 * dotp p v b == dotp p b b)%Q.
Proof. unfold circumscribed2, dist2_2, dotp. cbn. intros [A B]. split; nra. Qed.
Lemma dist_dot p x b : (dist2_2 x b - dist2_2 x p == dotp p b b - 2 * dotp p x b)%Q.
Proof. unfold dist2_2, dotp. ring. Qed.
(** The line through the centers of neighbouring circles separates the points by their distance to [p] and the shared corner [b]. *)
Lemma bisector p a b d v1 v2 : (0 < orient p b d)%Q -> circumscribed2 (T2 p a b) v1 -> circumscribed2 (T2 p b d) v2 ->
  (dist2_2 v1 p < dist2_2 v1 d)%Q -> exists m, (0 < m)%Q /\ forall x, (orient v1 v2 x == m * (dist2_2 x b - dist2_2 x p))%Q.
Proof.
  intros P0 C1 C2 O. destruct (circum_dot _ _ _ _ C1) as [_ B1]. destruct (circum_dot _ _ _ _ C2) as [B2 D2].
  assert (O' : (2 * dotp p v1 d < dotp p d d)%Q) by (pose proof (dist_dot p v1 d); lra).
  set (cr := ((x2 b - x2 p) * (y2 v2 - y2 v1) - (y2 b - y2 p) * (x2 v2 - x2 v1))%Q).
  assert (BB : (0 < dotp p b b)%Q).
  { pose proof (orient_pos_dist p b d P0) as X. unfold dist2_2 in X. unfold dotp. nra. }
  assert (CR : (0 < cr)%Q).
  { assert (X : (cr * orient p b d == (dotp p v2 d - dotp p v1 d) * dotp p b b - (dotp p v2 b - dotp p v1 b) * dotp p b d)%Q)
      by (unfold cr, orient, area2, dotp; cbn; ring).
    assert (Y : (dotp p v2 b - dotp p v1 b == 0)%Q) by lra. rewrite Y in X.
    pose proof (qmul_pos (dotp p v2 d - dotp p v1 d) _ ltac:(lra) BB) as Z.
    apply (qmul_pos_inv (orient p b d)); [exact P0|]. setoid_replace (orient p b d * cr)%Q with (cr * orient p b d)%Q by ring. lra. }
  exists (cr / (2 * dotp p b b))%Q. split; [apply Qlt_shift_div_l; lra|]. intro x. rewrite (dist_dot p x b).
  assert (X : (orient v1 v2 x * dotp p b b == (dotp p v2 b - dotp p v1 b) * ((x2 b - x2 p) * (y2 x - y2 v1) - (y2 b - y2 p) * (x2 x - x2 v1)) - cr * (dotp p x b - dotp p v1 b))%Q)
    by (unfold cr, orient, area2, dotp; cbn; ring).
  assert (Y : (dotp p v2 b - dotp p v1 b == 0)%Q) by lra. rewrite Y in X.
  assert (Z : (dotp p v1 b == (1#2) * dotp p b b)%Q) by lra. rewrite Z in X.
  apply (Qmult_inj_r _ _ (dotp p b b)); [lra|]. rewrite X. field. lra.
Qed.
Lemma cone_dot p a b y x : (orient p a b * dotp p y x == orient p y b * dotp p a x + orient p a y * dotp p b x)%Q.
Proof. unfold orient, area2, dotp. cbn. ring. Qed.

Fixpoint qsum (l : list Q) : Q := match l with [] => 0 | x :: l' => x + qsum l' end.
Lemma qsum_fold l : fold_right Qplus 0%Q l = qsum l.
Proof. induction l; cbn; congruence. Qed.
Lemma qsum_perm l m : Permutation l m -> (qsum l == qsum m)%Q.
Proof. induction 1; cbn; try lra. Qed.
Lemma around_sum {A} (g : A -> Q) l : (qsum (map (fun e => g (fst e)) (Cyclic_Spec.around l)) == qsum (map (fun e => g (snd e)) (Cyclic_Spec.around l)))%Q.
Proof.
  destruct (Cyclic_Proofs.around_once l) as [A1 A2].
  rewrite <- (map_map fst g), <- (map_map snd g). apply qsum_perm. apply Permutation_map. rewrite A1. now apply Permutation_sym.
Qed.
(** The sum does not depend on the origin. *)
Lemma shoelace p l : (qsum (map (fun w => x2 (fst w) * y2 (snd w) - x2 (snd w) * y2 (fst w)) (Cyclic_Spec.around l)) ==
  qsum (map (fun w => orient (fst w) (snd w) p) (Cyclic_Spec.around l)))%Q.
Proof.
  pose proof (around_sum (fun u => x2 u * y2 p - y2 u * x2 p)%Q l) as E.
  set (m := Cyclic_Spec.around l) in *. clearbody m.
  assert (X : (qsum (map (fun w => orient (fst w) (snd w) p) m) == qsum (map (fun w => x2 (fst w) * y2 (snd w) - x2 (snd w) * y2 (fst w)) m) +
    (qsum (map (fun e => x2 (snd e) * y2 p - y2 (snd e) * x2 p) m) - qsum (map (fun e => x2 (fst e) * y2 p - y2 (fst e) * x2 p) m)))%Q).
  { clear E. induction m as [|w m IH]; cbn [map qsum]; [ring|]. rewrite IH. unfold orient, area2. cbn. ring. }
  cbv beta in E. rewrite X, E. ring.
Qed.
(** The triangle from [p] to the face towards [b]: its height is half the distance of the points. *)
Lemma face_height p a b d v1 v2 : (0 < orient p b d)%Q -> circumscribed2 (T2 p a b) v1 -> circumscribed2 (T2 p b d) v2 ->
  (orient v1 v2 p * orient v1 v2 p == dist2_2 v1 v2 * (1#4) * dist2_2 b p)%Q.
Proof.
  intros P0 C1 C2. destruct (circum_dot _ _ _ _ C1) as [_ B1]. destruct (circum_dot _ _ _ _ C2) as [B2 _].
  set (cr := ((x2 b - x2 p) * (y2 v2 - y2 v1) - (y2 b - y2 p) * (x2 v2 - x2 v1))%Q).
  assert (BB : (0 < dotp p b b)%Q) by (pose proof (orient_pos_dist p b d P0) as X; unfold dist2_2 in X; unfold dotp; nra).
  assert (Y : (dotp p v2 b - dotp p v1 b == 0)%Q) by lra.
  assert (X : (orient v1 v2 p * dotp p b b == cr * dotp p v1 b - (dotp p v2 b - dotp p v1 b) * ((x2 b - x2 p) * (y2 v1 - y2 p) - (y2 b - y2 p) * (x2 v1 - x2 p)))%Q)
    by (unfold cr, orient, area2, dotp; cbn; ring).
  rewrite Y in X. assert (Z : (dotp p v1 b == (1#2) * dotp p b b)%Q) by lra. rewrite Z in X.
  assert (O : (orient v1 v2 p == (1#2) * cr)%Q) by (apply (Qmult_inj_r _ _ (dotp p b b)); lra).
  assert (S : (cr * cr == dotp p b b * dist2_2 v1 v2 - (dotp p v2 b - dotp p v1 b) * (dotp p v2 b - dotp p v1 b))%Q) by (unfold cr, dotp, dist2_2; ring).
  rewrite Y in S. rewrite O. assert (DB : (dist2_2 b p == dotp p b b)%Q) by reflexivity. rewrite DB.
  setoid_replace ((1#2) * cr * ((1#2) * cr))%Q with ((1#4) * (cr * cr))%Q by ring. rewrite S. ring.
Qed.

(** ** The cell of a point *)
Section Cells.
  Variable C : Type.
  Variable boundary : C.
  (** The coordinates in which the triangulation was built, and the original coordinates. *)
  Variables pts' pts : nat -> point2.
  Variable outer : nat -> bool.
  Variable cell_map : nat -> option C.
  Variable ptype : nat -> C.
  Variable s : triangulation.
  Variable p : nat.
  Hypothesis G : good pts' s.
  Hypothesis inner : 3 <= p < num_points s.
  Hypothesis outer_is : forall q, q < num_points s -> outer q = (q <? 3).
  Hypothesis types : forall q, q < num_points s -> if q <? 3 then ptype q = boundary else cell_map q = Some (ptype q).
  Hypothesis ccw : forall i a b c, tri s i a b c -> (0 < orient (pts a) (pts b) (pts c))%Q.

  Let I := gd_inv _ _ G.
  Let L := gd_tiling _ _ G.
  Notation items := (point_to_tetras s p).
  Notation n := (length items).
  Notation item := (fun k => nth k items no_tetra).
  Notation edge := (edge s p).
  Notation Succ := (Succ s p).

  Lemma particle_type q : q < num_points s -> get_particle_type C boundary outer cell_map q = Some (ptype q).
  Proof.
    intro H. unfold get_particle_type. rewrite (outer_is q H). specialize (types q H). destruct (q <? 3); [now f_equal|exact types].
  Qed.
  Lemma center_ok i t a b c : In (i, t) (tetras s) -> rot3 (points_of t) a b c -> circumscribed2 (shape2 pts a b c) (voronoi_point pts t).
  Proof.
    intros Ht R. assert (NZ : forall a b c, rot3 (points_of t) a b c -> ~ (area2 (T2 (pts a) (pts b) (pts c)) == 0)%Q).
    { intros x y z K Z. pose proof (ccw i x y z (ex_intro _ t (conj Ht K))) as X. unfold orient in X. rewrite Z in X. lra. }
    unfold voronoi_point, shape2. destruct R as [E|[E|E]]; rewrite E.
    - apply circumcenter2_ok, NZ. unfold rot3. rewrite E. tauto.
    - apply circumscribed2_rot, circumcenter2_ok, NZ. unfold rot3. rewrite E. tauto.
    - apply circumscribed2_rot, circumscribed2_rot, circumcenter2_ok, NZ. unfold rot3. rewrite E. tauto.
  Qed.
  Lemma edge_center k a b : k < n -> edge k a b -> circumscribed2 (shape2 pts p a b) (voronoi_point pts (snd (item k))).
  Proof.
    intros Hk [t [Ht R]]. pose proof (item_in s p k Hk) as [Hi _]. cbn beta in *. destruct (nth k items no_tetra) as [i u]. cbn [fst snd] in *.
    rewrite <- (NoDup_ids_eq _ _ _ _ (iv_ids _ _ _ I) Ht Hi). exact (center_ok i t p a b Ht R).
  Qed.

  (** [q] is the corner besides [p] that the triangles of a pair have in common. *)
  Definition shared (ij : nat * nat) (q : nat) : Prop :=
    exists a c, (edge (fst ij) a q /\ edge (snd ij) q c) \/ (edge (snd ij) a q /\ edge (fst ij) q c).
  Lemma dist_unique o1 o1' o2 o2' t1 t2 : ~ (area2 t1 == 0)%Q -> ~ (area2 t2 == 0)%Q -> circumscribed2 t1 o1 -> circumscribed2 t1 o1' ->
    circumscribed2 t2 o2 -> circumscribed2 t2 o2' -> (dist2_2 o1 o2 == dist2_2 o1' o2')%Q.
  Proof.
    intros N1 N2 A B A' B'. destruct (circumcenter2_unique _ _ N1 A) as [X1 X2]. destruct (circumcenter2_unique _ _ N1 B) as [X3 X4].
    destruct (circumcenter2_unique _ _ N2 A') as [Y1 Y2]. destruct (circumcenter2_unique _ _ N2 B') as [Y3 Y4].
    unfold dist2_2. rewrite X1, X2, X3, X4, Y1, Y2, Y3, Y4. reflexivity.
  Qed.
  Lemma face_ok i j : i < n -> j < n -> i <> j -> Succ i j \/ Succ j i -> exists qf,
    face_between C boundary pts outer cell_map s p (item i, item j) = Some (snd qf) /\ shared (i, j) (fst qf) /\ is_face pts s ptype p (fst qf) (snd qf) /\
    area_sq (snd qf) = distance_sq (voronoi_point pts (snd (item i))) (voronoi_point pts (snd (item j))).
  Proof.
    intros Hi Hj N SS. pose proof (proj2 (related_iff pts' s p G inner i j Hi Hj N) SS) as RE.
    unfold related, tetras_are_neighbours in RE. destruct (get_common_face_with (snd (item i)) (snd (item j))) as [f|] eqn:EF; [|discriminate]. clear RE.
    pose proof (common_joined pts' s p G inner i j f Hi Hj N EF) as JO.
    assert (Q : exists q ps, shared (i, j) q /\ In (f, ps) (faces s) /\ (ps = [q; p] \/ ps = [p; q])).
    { destruct JO as [[a [b [c [ps [E1 [E2 [F1 F2]]]]]]]|[a [b [c [ps [E1 [E2 [F1 F2]]]]]]]]; exists b, ps; (split; [|auto]); exists a, c; cbn; auto. }
    destruct Q as [q [ps [SH [F1 F2]]]]. unfold face_between. rewrite EF. cbn [bind].
    rewrite (In_arena_get _ _ _ (iv_fids _ _ _ I) F1). cbn [bind].
    assert (NQ : q <> p /\ q < num_points s).
    { destruct SH as [a [c [[E1 E2]|[E1 E2]]]].
      - split; [apply not_eq_sym, (tri_distinct pts' s G _ _ _ _ E2)|exact (tl_lt _ _ _ L _ _ _ _ (tri_rot _ _ _ _ _ E2))].
      - split; [apply not_eq_sym, (tri_distinct pts' s G _ _ _ _ E2)|exact (tl_lt _ _ _ L _ _ _ _ (tri_rot _ _ _ _ _ E2))]. }
    destruct NQ as [NQ LQ].
    assert (OP : other_point ps p = Some q).
    { destruct F2 as [->| ->]; cbn; [destruct (Nat.eqb_spec p q); [congruence|]; now rewrite Nat.eqb_refl|now rewrite Nat.eqb_refl]. }
    rewrite OP. cbn [bind]. rewrite (particle_type q LQ). cbn [bind].
    eexists (q, _). cbn [fst snd]. split; [reflexivity|]. split; [exact SH|].
    assert (CE : forall k l a c, k < n -> l < n -> edge k a q -> edge l q c ->
      edge_centers pts s p q (voronoi_point pts (snd (item l))) (voronoi_point pts (snd (item k))) /\
      forall o1 o2, edge_centers pts s p q o1 o2 -> (dist2_2 (voronoi_point pts (snd (item l))) (voronoi_point pts (snd (item k))) == dist2_2 o1 o2)%Q).
    { intros k l a c Hk Hl E1 E2. pose proof (edge_center k a q Hk E1) as C1. pose proof (edge_center l q c Hl E2) as C2.
      assert (C1' : circumscribed2 (shape2 pts q p a) (voronoi_point pts (snd (item k)))).
      { unfold shape2 in *. now apply circumscribed2_rot, circumscribed2_rot. }
      split.
      - split; [exists c; split; [apply is_triangle_tri; eexists; exact E2|exact C2]|].
        exists a. split; [apply is_triangle_tri; exists (fst (item k)); apply tri_rot, tri_rot; exact E1|exact C1'].
      - intros o1 o2 [[c' [T1 O1]] [a' [T2 O2]]].
        assert (c' = c /\ a' = a) as [-> ->].
        { apply is_triangle_tri in T1. destruct T1 as [i1 T1]. apply is_triangle_tri in T2. destruct T2 as [i2 T2].
          pose proof (tl_edge _ _ _ L _ _ _ _ _ _ T1 E2) as Z1. subst i1.
          pose proof (tl_edge _ _ _ L _ _ _ _ _ _ T2 (tri_rot _ _ _ _ _ (tri_rot _ _ _ _ _ E1))) as Z2. subst i2.
          split; [apply (tri_unique pts' s p G inner _ _ _ _ _ T1 E2)|apply (tri_unique pts' s p G inner _ _ _ _ _ (tri_rot _ _ _ _ _ T2) E1)]. }
        apply (dist_unique _ _ _ _ (shape2 pts p q c) (shape2 pts q p a)); auto.
        + pose proof (ccw _ _ _ _ E2) as P. unfold orient in P. unfold shape2. lra.
        + pose proof (ccw _ _ _ _ (tri_rot _ _ _ _ _ (tri_rot _ _ _ _ _ E1))) as P. unfold orient in P. unfold shape2. lra. }
    assert (DS : forall u v, (distance_sq u v == dist2_2 u v)%Q) by reflexivity.
    split; [|reflexivity]. destruct SH as [a [c [[E1 E2]|[E1 E2]]]]; cbn [fst snd] in *.
    - destruct (CE i j a c Hi Hj E1 E2) as [CE1 CE2]. constructor; cbn [connection normal area_sq get_normal x2 y2]; try reflexivity; [split; reflexivity|eauto|].
      intros o1 o2 H. rewrite DS, dist2_sym. auto.
    - destruct (CE j i a c Hj Hi E1 E2) as [CE1 CE2]. constructor; cbn [connection normal area_sq get_normal x2 y2]; try reflexivity; [split; reflexivity|eauto|].
      intros o1 o2 H. rewrite DS. auto.
  Qed.

  Notation around := Cyclic_Spec.around.
  Definition turned_ring (ring : list nat) : Prop :=
    (forall i j, In (i, j) (around ring) -> Succ i j) \/ (forall i j, In (i, j) (around ring) -> Succ j i).
  Lemma new_cell_run : exists ring c qs, Permutation ring (seq 0 n) /\ 3 <= length ring /\ turned_ring ring /\
    new_cell C boundary pts outer cell_map s p = Some c /\
    delaunay_point c = p /\ index c = ptype p /\ center c = pts p /\ is_infinite c = is_infinite_cell outer s p /\
    cell_points c = map (fun k => voronoi_point pts (snd (item k))) ring /\
    Forall2 shared (around ring) qs /\ Forall2 (is_face pts s ptype p) qs (cell_faces c) /\
    Forall2 (fun ij f => exists q, shared ij q /\ is_face pts s ptype p q f /\
      area_sq f = distance_sq (voronoi_point pts (snd (item (fst ij)))) (voronoi_point pts (snd (item (snd ij))))) (around ring) (cell_faces c).
  Proof.
    destruct (star_ring pts' s p G inner) as [ring [AR [PE [L3 OR]]]].
    exists ring.
    assert (LT : forall i j, In (i, j) (around ring) -> i < n /\ j < n).
    { intros i j H. destruct OR as [OR|OR]; specialize (OR i j H); destruct OR as [? [? _]]; auto. }
    destruct (map_option_forall (fun ij => match face_between C boundary pts outer cell_map s p (item (fst ij), item (snd ij)) with Some f => Some f | None => None end)
      (fun ij f => exists q, shared ij q /\ is_face pts s ptype p q f /\
        area_sq f = distance_sq (voronoi_point pts (snd (item (fst ij)))) (voronoi_point pts (snd (item (snd ij))))) (around ring)) as [fs [EF FF]].
    { intros [i j] H. destruct (LT i j H) as [Hi Hj].
      assert (SS : Succ i j \/ Succ j i) by (destruct OR as [OR|OR]; [left|right]; auto).
      assert (N : i <> j) by (intros ->; destruct SS as [X|X]; exact (succ_irrefl pts' s p G inner _ X)).
      destruct (face_ok i j Hi Hj N SS) as [[q f] [E1 [E2 [E3 E4]]]]. cbn [fst snd] in *. exists f. rewrite E1. split; [reflexivity|]. exists q. auto. }
    assert (EA : arranged tetras_are_neighbours items = Some (map (fun ij => (item (fst ij), item (snd ij))) (around ring))).
    { unfold arranged. unfold related in AR. cbn beta in AR. rewrite AR. reflexivity. }
    assert (EG : get_faces C boundary pts outer cell_map s p = Some fs).
    { unfold get_faces. rewrite EA. cbn [bind]. rewrite map_option_map, <- EF. clear.
      induction (around ring) as [|ij l IH]; [reflexivity|]. cbn [map_option]. rewrite IH. now destruct (face_between _ _ _ _ _ _ _ _). }
    assert (QS : exists qs, Forall2 shared (around ring) qs /\ Forall2 (is_face pts s ptype p) qs fs).
    { clear - FF. induction FF as [|ij f l fs [q [H1 [H2 _]]] FF [qs [IH1 IH2]]]; [exists []; split; constructor|]. exists (q :: qs). split; constructor; auto. }
    destruct QS as [qs [Q1 Q2]].
    assert (CM : cell_map p = Some (ptype p)).
    { pose proof (types p ltac:(lia)) as X. destruct (Nat.ltb_spec p 3); [lia|exact X]. }
    unfold new_cell. rewrite EA. cbn [bind]. rewrite CM. cbn [bind]. rewrite EG. cbn [bind].
    eexists _, qs. split; [exact PE|]. split; [exact L3|]. split; [exact OR|]. split; [reflexivity|]. cbn. repeat (split; [reflexivity|]).
    split; [|auto]. rewrite map_map. cbn. destruct (Cyclic_Proofs.around_once ring) as [A1 _].
    rewrite <- A1 at 2. rewrite map_map. reflexivity.
  Qed.

  Lemma ring_bounds ring : Permutation ring (seq 0 n) -> NoDup ring /\ NoDup (around ring) /\ (forall k, k < n -> In k ring) /\
    (forall i j, In (i, j) (around ring) -> i < n /\ j < n) /\
    (forall k, k < n -> exists j, In (k, j) (around ring)) /\ (forall k, k < n -> exists i, In (i, k) (around ring)).
  Proof.
    intro PE. assert (ND : NoDup ring) by (apply (Permutation_NoDup (Permutation_sym PE)), seq_NoDup).
    destruct (Cyclic_Proofs.around_once ring) as [A1 A2].
    assert (IN : forall k, k < n <-> In k ring).
    { intro k. split; intro H; [apply (Permutation_in _ (Permutation_sym PE)), in_seq; lia|apply (Permutation_in _ PE), in_seq in H; lia]. }
    split; [exact ND|]. split; [apply NoDup_fst; now rewrite A1|]. split; [intro k; apply IN|]. split; [|split].
    - intros i j H. split; apply IN; [rewrite <- A1; change i with (fst (i, j)); now apply in_map|
        apply (Permutation_in _ A2); change j with (snd (i, j)); now apply in_map].
    - intros k Hk. apply IN in Hk. rewrite <- A1 in Hk. apply in_map_iff in Hk. destruct Hk as [[i j] [E H]]. cbn in E. subst i. eauto.
    - intros k Hk. apply IN in Hk. apply (Permutation_in _ (Permutation_sym A2)) in Hk. apply in_map_iff in Hk. destruct Hk as [[i j] [E H]]. cbn in E. subst j. eauto.
  Qed.
  (** In a positive ring the shared corner is the second corner of the first triangle. *)
  Lemma shared_pos i j q : Succ i j -> shared (i, j) q -> exists a c, edge i a q /\ edge j q c.
  Proof.
    intros S1 [a [c [H|[H1 H2]]]]; [eauto|exfalso]. cbn [fst snd] in *. destruct S1 as [Hi [Hj S1]].
    apply (succ_asym pts' s p G inner i j); [split; [exact Hi|split; [exact Hj|exact S1]]|]. split; [exact Hj|split; [exact Hi|]]. exists a, q, c. auto.
  Qed.
  Lemma shared_swap i j q : shared (i, j) q -> shared (j, i) q.
  Proof. intros [a [c H]]. exists a, c. cbn in *. tauto. Qed.
  Lemma shared_inj i j i' j' q : Succ i j -> Succ i' j' -> shared (i, j) q -> shared (i', j') q -> i = i' /\ j = j'.
  Proof.
    intros S1 S2 H1 H2. destruct (shared_pos _ _ _ S1 H1) as [a [c [E1 E2]]]. destruct (shared_pos _ _ _ S2 H2) as [a' [c' [E3 E4]]].
    destruct S1 as [Hi [Hj _]]. destruct S2 as [Hi' [Hj' _]]. split; apply (item_eq pts' s p G inner); auto.
    - exact (tl_edge _ _ _ L _ _ _ _ _ _ (tri_rot _ _ _ _ _ (tri_rot _ _ _ _ _ E1)) (tri_rot _ _ _ _ _ (tri_rot _ _ _ _ _ E3))).
    - exact (tl_edge _ _ _ L _ _ _ _ _ _ E2 E4).
  Qed.
  Lemma neighbour_edge q : neighbour s p q <-> exists k a, k < n /\ edge k a q.
  Proof.
    split.
    - intros [N [i [t [Ht [Hp Hq]]]]]. assert (HI : In (i, t) items) by (apply items_in; auto).
      destruct (In_nth _ _ no_tetra HI) as [k [Hk Ek]]. destruct (edge_ex pts' s p G inner k Hk) as [[a b] E]. cbn [fst snd] in E.
      pose proof E as [t' [Ht' R]]. cbn beta in Ht'. rewrite Ek in Ht'. cbn [fst] in Ht'.
      rewrite (NoDup_ids_eq _ _ _ _ (iv_ids _ _ _ I) Ht Ht') in Hq. apply (rot3_in _ _ _ _ q R) in Hq. destruct Hq as [->|[->| ->]]; [congruence| |eauto].
      destruct (pred_ex pts' s p G inner k Hk) as [l [Hl [_ [x [y [z [X1 X2]]]]]]]. destruct (tri_unique pts' s p G inner _ _ _ _ _ X2 E) as [-> _]. eauto.
    - intros [k [a [Hk E]]]. pose proof (tri_distinct pts' s G _ _ _ _ E) as [_ [N _]]. split; [congruence|].
      destruct E as [t [Ht R]]. exists (fst (item k)), t. split; [exact Ht|]. split; apply (rot3_in _ _ _ _ _ R); auto.
  Qed.
  Lemma qs_spec ring qs : Permutation ring (seq 0 n) -> turned_ring ring -> Forall2 shared (around ring) qs ->
    NoDup qs /\ forall q, In q qs <-> neighbour s p q.
  Proof.
    intros PE OR F. destruct (ring_bounds ring PE) as [_ [ND [_ [LT [FST SND]]]]]. split.
    - apply (Forall2_NoDup _ _ _ F ND). intros [i j] [i' j'] q H1 H2 S1 S2. destruct OR as [OR|OR].
      + destruct (shared_inj i j i' j' q) as [-> ->]; auto.
      + destruct (shared_inj j i j' i' q) as [-> ->]; auto using shared_swap.
    - intro q. rewrite neighbour_edge. split.
      + intro H. destruct (Forall2_in_r _ _ _ _ F H) as [[i j] [H1 [a [c [[E1 E2]|[E1 E2]]]]]]; destruct (LT i j H1); cbn [fst snd] in *; eauto.
      + intros [k [a [Hk E]]]. destruct OR as [OR|OR].
        * destruct (FST k Hk) as [j Hj]. destruct (Forall2_in_l _ _ _ _ F Hj) as [q' [H1 H2]].
          destruct (shared_pos _ _ _ (OR _ _ Hj) H2) as [a' [c [E1 E2]]]. now destruct (tri_unique pts' s p G inner _ _ _ _ _ E E1) as [_ ->].
        * destruct (SND k Hk) as [j Hj]. destruct (Forall2_in_l _ _ _ _ F Hj) as [q' [H1 H2]].
          destruct (shared_pos _ _ _ (OR _ _ Hj) (shared_swap _ _ _ H2)) as [a' [c [E1 E2]]]. now destruct (tri_unique pts' s p G inner _ _ _ _ _ E E1) as [_ ->].
  Qed.
  Lemma infinite_iff : is_infinite_cell outer s p = true <-> exists q, q < 3 /\ neighbour s p q.
  Proof.
    unfold is_infinite_cell. rewrite existsb_exists. split.
    - intros [[i t] [H K]]. apply existsb_exists in K. destruct K as [q [K1 K2]]. cbn in K1. apply items_in in H. destruct H as [H1 H2]. cbn in H2.
      destruct (iv_corners _ _ _ I _ _ H1) as [_ [_ LT]]. rewrite (outer_is q (LT q K1)) in K2. apply Nat.ltb_lt in K2.
      exists q. split; [exact K2|]. split; [lia|]. eauto.
    - intros [q [Lq [N [i [t [Ht [Hp Hq]]]]]]]. exists (i, t). split; [now apply items_in|]. apply existsb_exists. exists q. split; [exact Hq|].
      destruct (iv_corners _ _ _ I _ _ Ht) as [_ [_ LT]]. rewrite (outer_is q (LT q Hq)). now apply Nat.ltb_lt.
  Qed.
  Theorem new_cell_ok : exists c, new_cell C boundary pts outer cell_map s p = Some c /\ cell_of pts s ptype p c.
  Proof.
    destruct new_cell_run as [ring [c [qs [PE [L3 [OR [E [E1 [E2 [E3 [E4 [E5 [F1 [F2 _]]]]]]]]]]]]]]. exists c. split; [exact E|].
    destruct (qs_spec ring qs PE OR F1) as [N1 N2]. constructor; auto.
    - exists qs. auto.
    - rewrite E4. exact infinite_iff.
  Qed.
  (** *** What the cell contains *)
  Section Region.
    Variable site : point2 -> Prop.
    Hypothesis free : forall a b o r, is_triangle s p a b -> circumscribed2 (shape2 pts p a b) o -> site r -> (dist2_2 o (pts p) <= dist2_2 o r)%Q.
    Hypothesis strict : forall i j a b c o, tri s i p a b -> tri s j p b c -> circumscribed2 (shape2 pts p a b) o -> (dist2_2 o (pts p) < dist2_2 o (pts c))%Q.
    Hypothesis near : forall q, neighbour s p q -> site (pts q).
    Notation vp := (fun k => voronoi_point pts (snd (item k))).

    Lemma succ_sign k l a b c : k < n -> l < n -> edge k a b -> edge l b c ->
      exists m, (0 < m)%Q /\ forall x, (orient (vp k) (vp l) x == m * (dist2_2 x (pts b) - dist2_2 x (pts p)))%Q.
    Proof.
      intros Hk Hl E1 E2. pose proof (edge_center k a b Hk E1) as C1. pose proof (edge_center l b c Hl E2) as C2.
      apply (bisector (pts p) (pts a) (pts b) (pts c)); auto; [exact (ccw _ _ _ _ E2)|]. exact (strict _ _ _ _ _ _ E1 E2 C1).
    Qed.
    Lemma orient_flip u v x : (orient v u x == - orient u v x)%Q.
    Proof. unfold orient, area2. cbn. ring. Qed.
    Lemma window_signs ring : Permutation ring (seq 0 n) -> turned_ring ring -> exists sg, (sg == 1 \/ sg == -1)%Q /\
      (forall i j, In (i, j) (around ring) -> exists q m, (0 < m)%Q /\ neighbour s p q /\
         forall x, (orient (vp i) (vp j) x == sg * (m * (dist2_2 x (pts q) - dist2_2 x (pts p))))%Q) /\
      (forall q, neighbour s p q -> exists i j m, In (i, j) (around ring) /\ (0 < m)%Q /\
         forall x, (orient (vp i) (vp j) x == sg * (m * (dist2_2 x (pts q) - dist2_2 x (pts p))))%Q).
    Proof.
      intros PE OR. destruct (ring_bounds ring PE) as [_ [_ [_ [LT [FST SND]]]]]. destruct OR as [OR|OR].
      - exists 1%Q. split; [left; reflexivity|]. split.
        + intros i j H. destruct (OR i j H) as [Hi [Hj [a [b [c [E1 E2]]]]]]. destruct (succ_sign i j a b c Hi Hj E1 E2) as [m [M1 M2]].
          exists b, m. split; [exact M1|]. split; [apply neighbour_edge; eauto|]. intro x. rewrite M2. ring.
        + intros q H. apply neighbour_edge in H. destruct H as [k [a [Hk E]]]. destruct (FST k Hk) as [j Hj].
          destruct (OR k j Hj) as [_ [Lj [a' [b [c [E1 E2]]]]]]. destruct (tri_unique pts' s p G inner _ _ _ _ _ E E1) as [<- <-].
          destruct (succ_sign k j a q c Hk Lj E1 E2) as [m [M1 M2]]. exists k, j, m. split; [exact Hj|]. split; [exact M1|]. intro x. rewrite M2. ring.
      - exists (-1)%Q. split; [right; reflexivity|]. split.
        + intros i j H. destruct (OR i j H) as [Hj [Hi [a [b [c [E1 E2]]]]]]. destruct (succ_sign j i a b c Hj Hi E1 E2) as [m [M1 M2]].
          exists b, m. split; [exact M1|]. split; [apply neighbour_edge; eauto|]. intro x. rewrite orient_flip, M2. ring.
        + intros q H. apply neighbour_edge in H. destruct H as [k [a [Hk E]]]. destruct (SND k Hk) as [j Hj].
          destruct (OR j k Hj) as [_ [Lj [a' [b [c [E1 E2]]]]]]. destruct (tri_unique pts' s p G inner _ _ _ _ _ E E1) as [<- <-].
          destruct (succ_sign k j a q c Hk Lj E1 E2) as [m [M1 M2]]. exists j, k, m. split; [exact Hj|]. split; [exact M1|]. intro x. rewrite orient_flip, M2. ring.
    Qed.
    (** Every direction is in the cone of a triangle. *)
    Lemma star_cone x : (0 < dist2_2 x (pts p))%Q -> exists k a b, k < n /\ edge k a b /\ (0 <= orient (pts p) (pts a) x)%Q /\ (0 <= orient (pts p) x (pts b))%Q.
    Proof.
      intro X. destruct (finite_choice (0, 0) (fun k ab => edge k (fst ab) (snd ab)) n (edge_ex pts' s p G inner)) as [g Hg].
      assert (LS : forall k, In k (seq 0 n) <-> k < n) by (intro k; rewrite in_seq; lia).
      destruct (cone pts (pts p) x (map g (seq 0 n))) as [a [b [HI [C1 C2]]]]; auto.
      - intros u v H. apply in_map_iff in H. destruct H as [l [El Hl]]. pose proof (Hg l (proj1 (LS l) Hl)) as E. rewrite El in E. exact (ccw _ _ _ _ E).
      - intros u v H. apply in_map_iff in H. destruct H as [l [El Hl]]. apply LS in Hl.
        destruct (succ_ex pts' s p G inner l Hl) as [m [_ [Hm [u' [v' [w [E1 E2]]]]]]].
        pose proof (Hg l Hl) as E. rewrite El in E. destruct (tri_unique pts' s p G inner _ _ _ _ _ E E1) as [_ V]. cbn [fst snd] in V. subst v'.
        exists w. apply in_map_iff. exists m. split; [|now apply LS]. destruct (tri_unique pts' s p G inner _ _ _ _ _ (Hg m Hm) E2) as [V1 V2].
        rewrite (surjective_pairing (g m)). congruence.
      - pose proof (star_some pts' s p G inner). destruct n; [lia|discriminate].
      - apply in_map_iff in HI. destruct HI as [k [Ek Hk]]. apply LS in Hk. pose proof (Hg k Hk) as E. rewrite Ek in E. exists k, a, b. auto.
    Qed.
    Lemma edge_neighbours k a b : k < n -> edge k a b -> neighbour s p a /\ neighbour s p b.
    Proof.
      intros Hk E. split; [|apply neighbour_edge; eauto]. apply neighbour_edge.
      destruct (pred_ex pts' s p G inner k Hk) as [l [Hl [_ [x [y [z [X1 X2]]]]]]]. destruct (tri_unique pts' s p G inner _ _ _ _ _ X2 E) as [-> _]. eauto.
    Qed.
    (** The neighbours decide. *)
    Lemma neighbours_decide x : (forall q, neighbour s p q -> dist2_2 x (pts p) <= dist2_2 x (pts q))%Q ->
      forall r, site r -> (dist2_2 x (pts p) <= dist2_2 x r)%Q.
    Proof.
      intros H r Hr. destruct (Qlt_le_dec 0 (dist2_2 r (pts p))) as [A|A].
      - destruct (star_cone r A) as [k [a [b [Hk [E [C1 C2]]]]]]. destruct (edge_neighbours k a b Hk E) as [Na Nb].
        pose proof (edge_center k a b Hk E) as CC. destruct (circum_dot _ _ _ _ CC) as [D1 D2].
        pose proof (H a Na) as Ha. pose proof (H b Nb) as Hb. pose proof (dist_dot (pts p) x (pts a)). pose proof (dist_dot (pts p) x (pts b)).
        assert (IT : is_triangle s p a b) by (apply is_triangle_tri; exists (fst (item k)); exact E).
        pose proof (free a b _ r IT CC Hr) as FR.
        pose proof (dist_dot (pts p) x r). pose proof (dist_dot (pts p) (vp k) r). cbn beta in *. set (v := voronoi_point pts (snd (nth k items no_tetra))) in *.
        pose proof (ccw _ _ _ _ E) as P0. pose proof (cone_dot (pts p) (pts a) (pts b) r x) as K1. pose proof (cone_dot (pts p) (pts a) (pts b) r v) as K2.
        assert (SY : forall u w, (dotp (pts p) u w == dotp (pts p) w u)%Q) by (intros; unfold dotp; ring).
        rewrite (SY (pts a) x), (SY (pts b) x), (SY r x) in K1. rewrite (SY (pts a) v), (SY (pts b) v), (SY r v) in K2.
        pose proof (qmul_nonneg _ (2 * dotp (pts p) v (pts a) - 2 * dotp (pts p) x (pts a)) C2 ltac:(lra)) as M1.
        pose proof (qmul_nonneg _ (2 * dotp (pts p) v (pts b) - 2 * dotp (pts p) x (pts b)) C1 ltac:(lra)) as M2.
        assert (K3 : (0 <= orient (pts p) (pts a) (pts b) * (dotp (pts p) v r - dotp (pts p) x r))%Q) by lra.
        apply qmul_nonneg_inv in K3; [|exact P0]. lra.
      - pose proof (dist2_nonneg r (pts p)). assert (Z : (dist2_2 r (pts p) == 0)%Q) by lra. apply dist2_zero in Z. destruct Z as [Z1 Z2].
        unfold dist2_2. rewrite Z1, Z2. lra.
    Qed.
    (** No point is at least as close to all neighbours as to [p]. *)
    Lemma not_all_closer x : ~ (forall q, neighbour s p q -> dist2_2 x (pts q) <= dist2_2 x (pts p))%Q.
    Proof.
      intro H. destruct (Qlt_le_dec 0 (dist2_2 x (pts p))) as [A|A].
      - set (y := P2 (2 * x2 (pts p) - x2 x) (2 * y2 (pts p) - y2 x)).
        assert (Y : (dist2_2 y (pts p) == dist2_2 x (pts p))%Q) by (unfold dist2_2, y; cbn; ring).
        destruct (star_cone y) as [k [a [b [Hk [E [C1 C2]]]]]]; [lra|]. destruct (edge_neighbours k a b Hk E) as [Na Nb].
        pose proof (H a Na) as Ha. pose proof (H b Nb) as Hb. pose proof (dist_dot (pts p) x (pts a)). pose proof (dist_dot (pts p) x (pts b)).
        pose proof (ccw _ _ _ _ E) as P0. pose proof (cone_dot (pts p) (pts a) (pts b) y x) as K1.
        assert (SY : forall u w, (dotp (pts p) u w == dotp (pts p) w u)%Q) by (intros; unfold dotp; ring).
        assert (PD : forall u, (0 <= dotp (pts p) u u)%Q) by (intro u; apply (dist2_nonneg u (pts p))).
        rewrite (SY (pts a) x), (SY (pts b) x) in K1. pose proof (PD (pts a)). pose proof (PD (pts b)).
        pose proof (qmul_nonneg _ (dotp (pts p) x (pts a)) C2 ltac:(lra)) as M1.
        pose proof (qmul_nonneg _ (dotp (pts p) x (pts b)) C1 ltac:(lra)) as M2.
        assert (YX : (dotp (pts p) y x == - dist2_2 x (pts p))%Q) by (unfold dotp, dist2_2, y; cbn; ring).
        rewrite YX in K1. pose proof (qmul_pos _ _ P0 A) as M3.
        setoid_replace (orient (pts p) (pts a) (pts b) * - dist2_2 x (pts p))%Q with (- (orient (pts p) (pts a) (pts b) * dist2_2 x (pts p)))%Q in K1 by ring. lra.
      - pose proof (dist2_nonneg x (pts p)). pose proof (star_some pts' s p G inner) as S0.
        destruct (edge_ex pts' s p G inner 0 S0) as [[a b] E]. cbn [fst snd] in E. destruct (edge_neighbours 0 a b S0 E) as [Na _].
        pose proof (H a Na) as Ha. pose proof (orient_pos_dist _ _ _ (ccw _ _ _ _ E)) as P1. pose proof (dist2_nonneg x (pts a)).
        assert (Z1 : (dist2_2 x (pts p) == 0)%Q) by lra. assert (Z2 : (dist2_2 x (pts a) == 0)%Q) by lra.
        apply dist2_zero in Z1. apply dist2_zero in Z2. destruct Z1 as [Z1 Z3]. destruct Z2 as [Z2 Z4]. unfold dist2_2 in P1.
        rewrite <- Z1, <- Z3, <- Z2, <- Z4 in P1. match type of P1 with (0 < ?e)%Q => assert (Z : (e == 0)%Q) by ring end. lra.
    Qed.

    Theorem contains_ok c : new_cell C boundary pts outer cell_map s p = Some c ->
      forall x, cell_contains c x = true <-> forall r, site r -> (dist2_2 x (pts p) <= dist2_2 x r)%Q.
    Proof.
      intros E0 x. destruct new_cell_run as [ring [c' [qs [PE [L3 [OR [E [_ [_ [_ [_ [E5 _]]]]]]]]]]]]. rewrite E0 in E. injection E as <-.
      destruct (window_signs ring PE OR) as [sg [SG [W1 W2]]].
      assert (WI : point_windows c = map (fun ij => (vp (fst ij), vp (snd ij))) (around ring)).
      { unfold point_windows. rewrite Cyclic_Proofs.windows_spec, E5, map_length. destruct (Nat.ltb_spec (length ring) 2); [lia|]. exact (around_map vp ring). }
      assert (SI : forall u v, (sign x u v == orient u v x)%Q) by (intros; unfold sign, orient, area2; cbn; ring).
      assert (LTB : forall a b, Qltb a b = true <-> (a < b)%Q).
      { intros a b. unfold Qltb. rewrite negb_true_iff. split; intro H.
        - apply Qnot_le_lt. intro Z. apply Qle_bool_iff in Z. congruence.
        - apply not_true_iff_false. intro Z. apply Qle_bool_iff in Z. lra. }
      assert (NEG : existsb (fun v => Qltb v 0) (map (fun w => sign x (fst w) (snd w)) (point_windows c)) = true <->
        exists i j, In (i, j) (around ring) /\ (orient (vp i) (vp j) x < 0)%Q).
      { rewrite existsb_exists, WI, map_map. split.
        - intros [v [H K]]. apply in_map_iff in H. destruct H as [[i j] [H1 H2]]. apply LTB in K. cbn [fst snd] in H1. exists i, j. split; [exact H2|].
          rewrite <- H1, SI in K. exact K.
        - intros [i [j [H K]]]. exists (sign x (vp i) (vp j)). split; [apply in_map_iff; exists (i, j); auto|]. apply LTB. rewrite SI. exact K. }
      assert (POS : existsb (fun v => Qltb 0 v) (map (fun w => sign x (fst w) (snd w)) (point_windows c)) = true <->
        exists i j, In (i, j) (around ring) /\ (0 < orient (vp i) (vp j) x)%Q).
      { rewrite existsb_exists, WI, map_map. split.
        - intros [v [H K]]. apply in_map_iff in H. destruct H as [[i j] [H1 H2]]. apply LTB in K. cbn [fst snd] in H1. exists i, j. split; [exact H2|].
          rewrite <- H1, SI in K. exact K.
        - intros [i [j [H K]]]. exists (sign x (vp i) (vp j)). split; [apply in_map_iff; exists (i, j); auto|]. apply LTB. rewrite SI. exact K. }
      unfold cell_contains. rewrite negb_true_iff, andb_false_iff, <- !not_true_iff_false, NEG, POS. clear NEG POS.
      (* some corner is further away than [p] *)
      assert (FAR : exists i j, In (i, j) (around ring) /\ (0 < sg * orient (vp i) (vp j) x)%Q).
      { destruct (existsb (fun ij => Qltb 0 (sg * orient (vp (fst ij)) (vp (snd ij)) x)) (around ring)) eqn:EX.
        - apply existsb_exists in EX. destruct EX as [[i j] [X1 X2]]. exists i, j. split; [exact X1|]. now apply LTB.
        - exfalso. apply (not_all_closer x). intros q Hq. destruct (W2 q Hq) as [i [j [m [I1 [M1 M2]]]]].
          destruct (Qlt_le_dec (dist2_2 x (pts p)) (dist2_2 x (pts q))) as [LT|]; [exfalso|assumption].
          rewrite <- not_true_iff_false in EX. apply EX. apply existsb_exists. exists (i, j). split; [exact I1|]. apply LTB. cbn [fst snd]. rewrite M2.
          pose proof (qmul_pos m _ M1 (proj1 (Qlt_minus_iff _ _) LT)) as Z.
          assert (SS : (sg * sg == 1)%Q) by (destruct SG as [->| ->]; reflexivity). rewrite Qmult_assoc, SS. unfold Qminus. lra. }
      assert (ALL : (forall i j, In (i, j) (around ring) -> 0 <= sg * orient (vp i) (vp j) x)%Q <-> forall r, site r -> (dist2_2 x (pts p) <= dist2_2 x r)%Q).
      { assert (SS : (sg * sg == 1)%Q) by (destruct SG as [->| ->]; reflexivity). split.
        - intro H. apply neighbours_decide. intros q Hq. destruct (W2 q Hq) as [i [j [m [I1 [M1 M2]]]]]. specialize (H i j I1). rewrite M2, Qmult_assoc, SS in H.
          assert (K : (0 <= m * (dist2_2 x (pts q) - dist2_2 x (pts p)))%Q) by lra. apply qmul_nonneg_inv in K; [lra|exact M1].
        - intros H i j I1. destruct (W1 i j I1) as [q [m [M1 [Nq M2]]]]. rewrite M2, Qmult_assoc, SS. pose proof (H _ (near q Nq)) as K.
          pose proof (qmul_nonneg m (dist2_2 x (pts q) - dist2_2 x (pts p)) ltac:(lra) ltac:(lra)). lra. }
      rewrite <- ALL. destruct FAR as [i0 [j0 [I0 F0]]].
      destruct SG as [SG|SG].
      - split.
        + intros [H|H] i j I1; rewrite SG.
          * destruct (Qlt_le_dec (orient (vp i) (vp j) x) 0) as [LT|]; [exfalso; apply H; eauto|]. lra.
          * exfalso. apply H. exists i0, j0. split; [exact I0|]. rewrite SG in F0. lra.
        + intro H. left. intros [i [j [I1 LT]]]. specialize (H i j I1). rewrite SG in H. lra.
      - split.
        + intros [H|H] i j I1; rewrite SG.
          * exfalso. apply H. exists i0, j0. split; [exact I0|]. rewrite SG in F0. lra.
          * destruct (Qlt_le_dec 0 (orient (vp i) (vp j) x)) as [LT|]; [exfalso; apply H; eauto|]. lra.
        + intro H. right. intros [i [j [I1 LT]]]. specialize (H i j I1). rewrite SG in H. lra.
    Qed.
    Theorem volume_ok c : new_cell C boundary pts outer cell_map s p = Some c -> volume_of_faces c.
    Proof.
      intros E0. destruct new_cell_run as [ring [c' [qs [PE [L3 [OR [E [_ [_ [_ [_ [E5 [_ [_ FF]]]]]]]]]]]]]]. rewrite E0 in E. injection E as <-.
      assert (WI : point_windows c = map (fun ij => (vp (fst ij), vp (snd ij))) (around ring)).
      { unfold point_windows. rewrite Cyclic_Proofs.windows_spec, E5, map_length. destruct (Nat.ltb_spec (length ring) 2); [lia|]. exact (around_map vp ring). }
      assert (WA : point_windows c = around (map vp ring)) by (rewrite WI; symmetry; exact (around_map vp ring)).
      assert (ONE : exists sg, (sg == 1 \/ sg == -1)%Q /\ forall i j q, In (i, j) (around ring) -> shared (i, j) q ->
        (0 < sg * orient (vp i) (vp j) (pts p) /\ orient (vp i) (vp j) (pts p) * orient (vp i) (vp j) (pts p) == dist2_2 (vp i) (vp j) * (1#4) * dist2_2 (pts q) (pts p))%Q).
      { assert (ST : forall i j q, Succ i j -> shared (i, j) q -> (0 < orient (vp i) (vp j) (pts p) /\
          orient (vp i) (vp j) (pts p) * orient (vp i) (vp j) (pts p) == dist2_2 (vp i) (vp j) * (1#4) * dist2_2 (pts q) (pts p))%Q).
        { intros i j q S1 SH. destruct (shared_pos _ _ _ S1 SH) as [a [b [E1 E2]]]. destruct S1 as [Hi [Hj _]].
          destruct (succ_sign i j a q b Hi Hj E1 E2) as [m [M1 M2]]. split.
          - rewrite M2. assert (Z : (dist2_2 (pts p) (pts p) == 0)%Q) by (unfold dist2_2; ring). rewrite Z.
            pose proof (orient_pos_dist _ _ _ (ccw _ _ _ _ E2)) as P1. pose proof (qmul_pos m _ M1 P1). lra.
          - exact (face_height (pts p) (pts a) (pts q) (pts b) (vp i) (vp j) (ccw _ _ _ _ E2) (edge_center i a q Hi E1) (edge_center j q b Hj E2)). }
        destruct OR as [OR|OR].
        - exists 1%Q. split; [left; reflexivity|]. intros i j q H SH. destruct (ST i j q (OR i j H) SH) as [X Y]. split; [lra|exact Y].
        - exists (-1)%Q. split; [right; reflexivity|]. intros i j q H SH. destruct (ST j i q (OR i j H) (shared_swap _ _ _ SH)) as [X Y].
          rewrite (orient_flip (vp j) (vp i)). rewrite (dist2_sym (vp i) (vp j)). split; [lra|]. rewrite <- Y. ring. }
      destruct ONE as [sg [SG ONE]].
      exists (map (fun ij => sg * orient (vp (fst ij)) (vp (snd ij)) (pts p))%Q (around ring)). split.
      - clear WI WA. assert (IN : forall ij, In ij (around ring) -> In ij (around ring)) by auto. revert IN FF. generalize (around ring) at 1 3 4.
        intros l IN FF. revert IN. remember (cell_faces c) as fs eqn:Efs. clear Efs.
        induction FF as [|[i j] f l fs [q [SH [IF AR]]] FF IH]; intro IN; [constructor|]. cbn [map]. constructor; [|apply IH; intros; apply IN; now right].
        cbn [fst snd] in *. destruct (ONE i j q (IN _ (or_introl eq_refl)) SH) as [X Y]. split; [exact X|].
        rewrite AR. destruct IF as [_ [N1 N2] _ _]. rewrite N1, N2.
        assert (SS : (sg * sg == 1)%Q) by (destruct SG as [->| ->]; reflexivity).
        transitivity ((sg * sg) * (orient (vp i) (vp j) (pts p) * orient (vp i) (vp j) (pts p)))%Q; [ring|]. rewrite SS, Y. unfold distance_sq, dist2_2. ring.
      - unfold cell_volume. rewrite !qsum_fold, WA, (shoelace (pts p)), <- WA, WI, map_map.
        assert (K : (qsum (map (fun ij => sg * orient (vp (fst ij)) (vp (snd ij)) (pts p)) (around ring)) == sg * qsum (map (fun ij => orient (vp (fst ij)) (vp (snd ij)) (pts p)) (around ring)))%Q).
        { generalize (around ring). clear. induction l as [|e l IH]; cbn [map qsum]; [ring|]. rewrite IH. ring. }
        assert (NN : (0 <= qsum (map (fun ij => sg * orient (vp (fst ij)) (vp (snd ij)) (pts p)) (around ring)))%Q).
        { assert (POS : Forall (fun ij => 0 <= sg * orient (vp (fst ij)) (vp (snd ij)) (pts p))%Q (around ring)).
          { apply Forall_forall. intros [i j] H. destruct (Forall2_in_l _ _ _ _ FF H) as [f [_ [q [SH _]]]]. destruct (ONE i j q H SH). cbn. lra. }
          clear - POS. induction POS; cbn [map qsum]; lra. }
        cbn [fst snd]. set (t := qsum (map (fun ij => orient (vp (fst ij)) (vp (snd ij)) (pts p)) (around ring))) in *.
        change (qsum (map (fun x => orient (vp (fst x)) (vp (snd x)) (pts p)) (around ring))) with t.
        rewrite K in *. destruct SG as [SG|SG]; rewrite SG in *.
        + rewrite Qabs_pos by lra. ring.
        + rewrite Qabs_neg by lra. ring.
    Qed.
  End Region.
End Cells.

(** ** Faces from both sides *)
Lemma neighbour_sym s p q : neighbour s p q -> neighbour s q p.
Proof. intros [N [i [t [H [A B]]]]]. split; [congruence|]. eauto. Qed.
Theorem faces_mutual {C} pts s (ptype : nat -> C) p q c d : cell_of pts s ptype p c -> cell_of pts s ptype q d -> neighbour s p q ->
  mutual_faces pts s ptype p q c d.
Proof.
  intros [_ _ _ [qs [_ [Q1 Q2]]] _] [_ _ _ [ps [_ [P1 P2]]] _] N.
  destruct (Forall2_in_l _ _ _ q Q2) as [f [F1 F2]]; [now apply Q1|].
  destruct (Forall2_in_l _ _ _ p P2) as [g [G1 G2]]; [now apply P1, neighbour_sym|].
  exists f, g. split; [exact F1|]. split; [exact G1|]. split; [exact F2|]. split; [exact G2|].
  destruct F2 as [_ [N1 N2] [o1 [o2 O]] A]. destruct G2 as [_ [M1 M2] _ B]. repeat split.
  - rewrite (A o1 o2 O), (B o2 o1); [apply dist2_sym|]. destruct O as [O1 O2]. split; assumption.
  - rewrite N1, M1. ring.
  - rewrite N2, M2. ring.
Qed.
