(** The triangulation in space in the coordinates of the points themselves. *)
From Coq Require Import List Arith Lia QArith Qminmax Lqa Setoid Bool Permutation.
From Verif Require Import Geometry_Model Geometry_Spec Geometry_Proofs GeometryContains_Proofs Circle2_Proofs Tiling2_Proofs Delaunay_Model Delaunay_Spec
  DelaunayGlobal3_Spec DelaunayGeo_Model DelaunayFinal_Proofs Sphere3_Proofs Predicates3_Proofs Tiling3_Proofs DelaunayLink3_Proofs
  DelaunayGlobal3_Proofs DelaunayUnique3_Proofs DelaunayRemap3_Model.
Import ListNotations.
Local Open Scope Q_scope.

(** ** Maps that stretch the coordinates *)
Section Stretch.
  Variables f g : point3 -> point3.
  Variable k : Q.
  Hypothesis k_pos : 0 < k.
  Hypothesis f_orient : forall a b c d, orient3 (f a) (f b) (f c) (f d) == k * orient3 a b c d.
  Hypothesis f_mean : forall a b c d x l1 l2 l3 l4, mean4 (TT (f a) (f b) (f c) (f d)) l1 l2 l3 l4 (f x) <-> mean4 (TT a b c d) l1 l2 l3 l4 x.
  Hypothesis f_g : forall x, same_point3 (f (g x)) x.
  Variables pts pts' : nat -> point3.
  Hypothesis image : forall v, pts' v = f (pts v).

  Lemma stretch3_pos a b c d : 0 < orient3 (f a) (f b) (f c) (f d) <-> 0 < orient3 a b c d.
  Proof. rewrite f_orient. split; intro H; [exact (qmul_pos_inv _ _ k_pos H)|exact (qmul_pos _ _ k_pos H)]. Qed.
  Lemma stretch3_strict a b c d x : strictly_inside3 (shape3 pts' a b c d) (f x) <-> strictly_inside3 (shape3 pts a b c d) x.
  Proof.
    unfold strictly_inside3, shape3. rewrite !image. split; intros [l1 [l2 [l3 [l4 [M R]]]]]; exists l1, l2, l3, l4; (split; [|exact R]); now apply f_mean.
  Qed.
  Lemma stretch3_in a b c d x : in_tetra (shape3 pts' a b c d) (f x) <-> in_tetra (shape3 pts a b c d) x.
  Proof.
    unfold in_tetra, shape3. rewrite !image. split; intros [l1 [l2 [l3 [l4 [M R]]]]]; exists l1, l2, l3, l4; (split; [|exact R]); now apply f_mean.
  Qed.
  Lemma stretch3_tiles s : tiles3 pts' s -> tiles3 pts s.
  Proof.
    intros [A B C]. constructor.
    - intros i t Ht. destruct (A i t Ht) as [a [b [c [d [E [L P]]]]]]. exists a, b, c, d. split; [exact E|]. split; [exact L|].
      apply (proj1 (stretch3_pos (pts a) (pts b) (pts c) (pts d))). rewrite <- !image. exact P.
    - intros i t j u a b c d e f' g' h x Ht Hu Et Eu HI HC.
      apply (B i t j u a b c d e f' g' h (f x) Ht Hu Et Eu); [now apply stretch3_strict|now apply stretch3_in].
    - intros x Hx. destruct (C (f x)) as [a [b [c [d [T1 H]]]]]; [now apply stretch3_in|].
      exists a, b, c, d. split; [exact T1|now apply stretch3_in].
  Qed.

  Variable r : Q.
  Hypothesis r_pos : 0 < r.
  Hypothesis f_dist : forall a b, dist2_3 (f a) (f b) == r * dist2_3 a b.
  Lemma stretch3_dist o v : dist2_3 o (pts' v) == r * dist2_3 (g o) (pts v).
  Proof. rewrite image, <- f_dist. destruct (f_g o) as [E1 [E2 E3]]. unfold dist2_3. rewrite E1, E2, E3. reflexivity. Qed.
  Lemma stretch3_inj x y : r * x == r * y -> x == y.
  Proof. intros E. apply (Qmult_inj_l _ _ r); [lra|exact E]. Qed.
  Lemma stretch3_empty n a b c d : empty_circumsphere3 pts' n a b c d -> empty_circumsphere3 pts n a b c d.
  Proof.
    intros [o [[C1 [C2 C3]] H]]. cbn [shape3 ttp1 ttp2 ttp3 ttp4] in C1, C2, C3.
    rewrite !stretch3_dist in C1, C2, C3. exists (g o). split.
    - split; [|split]; cbn [shape3 ttp1 ttp2 ttp3 ttp4]; apply stretch3_inj; assumption.
    - intros v Hv N1 N2 N3 N4. specialize (H v Hv N1 N2 N3 N4). rewrite !stretch3_dist in H.
      apply (Qmult_lt_l _ _ r r_pos). exact H.
  Qed.
  Lemma stretch3_delaunay s : delaunay3 pts' s -> delaunay3 pts s.
  Proof. intros [A B]. split; [exact (stretch3_tiles s A)|]. intros a b c d H. apply stretch3_empty. exact (B a b c d H). Qed.

  Lemma stretch3_general n : general_position3 pts n -> general_position3 pts' n.
  Proof.
    intros [A B C]. constructor.
    - intros v Hv. rewrite (image v). apply stretch3_strict. exact (A v Hv).
    - intros a b c d Ha Hb Hc Hd ND Z. apply (B a b c d Ha Hb Hc Hd ND).
      unfold shape3 in *. rewrite !image in Z. fold (orient3 (f (pts a)) (f (pts b)) (f (pts c)) (f (pts d))) in Z. rewrite f_orient in Z.
      apply Qmult_integral in Z. destruct Z as [Z|Z]; [lra|exact Z].
    - intros a b c d e o Ha Hb Hc Hd He ND [C1 [C2 C3]] Z. cbn [shape3 ttp1 ttp2 ttp3 ttp4] in C1, C2, C3.
      rewrite !stretch3_dist in C1, C2, C3, Z. apply (C a b c d e (g o) Ha Hb Hc Hd He ND); [|now apply stretch3_inj].
      split; [|split]; cbn [shape3 ttp1 ttp2 ttp3 ttp4]; now apply stretch3_inj.
  Qed.
End Stretch.

(** ** The remapping *)
Definition unmap3 (min max p : point3) : point3 :=
  P3 (x3 min + (x3 p - 1) * (x3 max - x3 min)) (y3 min + (y3 p - 1) * (y3 max - y3 min)) (z3 min + (z3 p - 1) * (z3 max - z3 min)).
Section Remap.
  Variables min max : point3.
  Hypothesis Hx : x3 min < x3 max.
  Hypothesis Hy : y3 min < y3 max.
  Hypothesis Hz : z3 min < z3 max.
  Notation f := (remap3 min max).
  Lemma remap3_orient a b c d :
    orient3 (f a) (f b) (f c) (f d) == / ((x3 max - x3 min) * (y3 max - y3 min) * (z3 max - z3 min)) * orient3 a b c d.
  Proof. unfold orient3, volume6, triple, remap3. cbn [ttp1 ttp2 ttp3 ttp4 x3 y3 z3]. field. repeat split; lra. Qed.
  Lemma remap3_pos : 0 < / ((x3 max - x3 min) * (y3 max - y3 min) * (z3 max - z3 min)).
  Proof. apply Qinv_lt_0_compat. repeat apply qmul_pos; lra. Qed.
  Lemma remap1_mean m M a b c d x l1 l2 l3 l4 : m < M -> l1 + l2 + l3 + l4 == 1 ->
    (1 + (x - m) * (1 / (M - m)) == l1 * (1 + (a - m) * (1 / (M - m))) + l2 * (1 + (b - m) * (1 / (M - m)))
      + l3 * (1 + (c - m) * (1 / (M - m))) + l4 * (1 + (d - m) * (1 / (M - m))) <-> x == l1 * a + l2 * b + l3 * c + l4 * d).
  Proof.
    intros H S. assert (l1 == 1 - l2 - l3 - l4) as E by lra. split; intro K.
    - assert (X : (M - m) * (1 + (x - m) * (1 / (M - m))) == (M - m) * (l1 * (1 + (a - m) * (1 / (M - m))) + l2 * (1 + (b - m) * (1 / (M - m)))
      + l3 * (1 + (c - m) * (1 / (M - m))) + l4 * (1 + (d - m) * (1 / (M - m))))) by (rewrite K; reflexivity).
      assert (X1 : (M - m) * (1 + (x - m) * (1 / (M - m))) == M - m + x - m) by (field; lra).
      assert (X2 : (M - m) * (l1 * (1 + (a - m) * (1 / (M - m))) + l2 * (1 + (b - m) * (1 / (M - m)))
      + l3 * (1 + (c - m) * (1 / (M - m))) + l4 * (1 + (d - m) * (1 / (M - m)))) == (l1 + l2 + l3 + l4) * (M - m - m) + l1 * a + l2 * b + l3 * c + l4 * d) by (field; lra).
      rewrite X1, X2, S in X. lra.
    - rewrite K, E. field. lra.
  Qed.
  Lemma remap3_mean a b c d x l1 l2 l3 l4 : mean4 (TT (f a) (f b) (f c) (f d)) l1 l2 l3 l4 (f x) <-> mean4 (TT a b c d) l1 l2 l3 l4 x.
  Proof.
    unfold mean4, remap3. cbn [ttp1 ttp2 ttp3 ttp4 x3 y3 z3]. split; intros [S [A [B C]]]; (split; [exact S|]).
    - split; [|split].
      + exact (proj1 (remap1_mean _ _ _ _ _ _ _ _ _ _ _ Hx S) A).
      + exact (proj1 (remap1_mean _ _ _ _ _ _ _ _ _ _ _ Hy S) B).
      + exact (proj1 (remap1_mean _ _ _ _ _ _ _ _ _ _ _ Hz S) C).
    - split; [|split].
      + exact (proj2 (remap1_mean _ _ _ _ _ _ _ _ _ _ _ Hx S) A).
      + exact (proj2 (remap1_mean _ _ _ _ _ _ _ _ _ _ _ Hy S) B).
      + exact (proj2 (remap1_mean _ _ _ _ _ _ _ _ _ _ _ Hz S) C).
  Qed.
  Lemma remap3_inverse x : same_point3 (f (unmap3 min max x)) x.
  Proof. repeat split; cbn; field; lra. Qed.
  Lemma remap3_dist a b : x3 max - x3 min == y3 max - y3 min -> x3 max - x3 min == z3 max - z3 min ->
    dist2_3 (f a) (f b) == / ((x3 max - x3 min) * (x3 max - x3 min)) * dist2_3 a b.
  Proof. intros E1 E2. unfold dist2_3, remap3. cbn [x3 y3 z3]. rewrite <- E1, <- E2. field. lra. Qed.
End Remap.

(** The extent of the initial tetrahedron is 3.12 times as large as that of the points. *)
Lemma outer_extent1 m M : m < M ->
  Qmin (Qmin (Qmin (m - (1#100) * (M - m)) (M + ((21#10) + (1#100)) * (M - m))) m) m == m - (1#100) * (M - m) /\
  Qmax (Qmax (Qmax (m - (1#100) * (M - m)) (M + ((21#10) + (1#100)) * (M - m))) m) m == M + (211#100) * (M - m).
Proof.
  intro H.
  assert (L : forall a b, a <= b -> Qmin a b == a) by (intros; now apply Q.min_l).
  assert (L' : forall a b, b <= a -> Qmax a b == a) by (intros; now apply Q.max_l).
  assert (R' : forall a b, a <= b -> Qmax a b == b) by (intros; now apply Q.max_r).
  split.
  - rewrite (L (m - (1#100) * (M - m))) by lra. rewrite (L (m - (1#100) * (M - m))) by lra. rewrite (L (m - (1#100) * (M - m))) by lra. reflexivity.
  - rewrite (R' (m - (1#100) * (M - m))) by lra. rewrite (L' (M + ((21#10) + (1#100)) * (M - m))) by lra.
    rewrite (L' (M + ((21#10) + (1#100)) * (M - m))) by lra. ring.
Qed.
Lemma qmin_swap a b c d : Qmin (Qmin (Qmin a b) c) d == Qmin (Qmin (Qmin a c) b) d.
Proof. rewrite <- (Q.min_assoc a b c), (Q.min_comm b c), Q.min_assoc. reflexivity. Qed.
Lemma qmax_swap a b c d : Qmax (Qmax (Qmax a b) c) d == Qmax (Qmax (Qmax a c) b) d.
Proof. rewrite <- (Q.max_assoc a b c), (Q.max_comm b c), Q.max_assoc. reflexivity. Qed.
Lemma qmin_swap2 a b c d : Qmin (Qmin (Qmin a b) c) d == Qmin (Qmin (Qmin a b) d) c.
Proof. rewrite <- (Q.min_assoc (Qmin a b) c d), (Q.min_comm c d), Q.min_assoc. reflexivity. Qed.
Lemma qmax_swap2 a b c d : Qmax (Qmax (Qmax a b) c) d == Qmax (Qmax (Qmax a b) d) c.
Proof. rewrite <- (Q.max_assoc (Qmax a b) c d), (Q.max_comm c d), Q.max_assoc. reflexivity. Qed.
Lemma outer_extent3 min max : x3 min < x3 max -> y3 min < y3 max -> z3 min < z3 max -> exists emin emax,
  tetra_extent3 (all_encompassing3 min max) = (emin, emax) /\
  x3 emax - x3 emin == (312#100) * (x3 max - x3 min) /\ y3 emax - y3 emin == (312#100) * (y3 max - y3 min) /\
  z3 emax - z3 emin == (312#100) * (z3 max - z3 min).
Proof.
  intros Hx Hy Hz. unfold tetra_extent3. do 2 eexists. split; [reflexivity|].
  unfold all_encompassing3. cbn [ttp1 ttp2 ttp3 ttp4 x3 y3 z3 add3 sub3 scale3].
  destruct (outer_extent1 _ _ Hx) as [A1 B1]. destruct (outer_extent1 _ _ Hy) as [A2 B2]. destruct (outer_extent1 _ _ Hz) as [A3 B3].
  rewrite A1, B1. rewrite qmin_swap, qmax_swap, A2, B2.
  rewrite (qmin_swap2 _ _ (z3 min)), (qmax_swap2 _ _ (z3 min)), qmin_swap, qmax_swap, A3, B3.
  split; [ring|split; ring].
Qed.
Lemma outer_pos3 min max l : x3 min < x3 max -> y3 min < y3 max -> z3 min < z3 max ->
  0 < orient3 (table3 min max l 0%nat) (table3 min max l 1%nat) (table3 min max l 2%nat) (table3 min max l 3%nat).
Proof.
  intros Hx Hy Hz. apply (proj1 (all_encompassing3_ok min max min Hx Hy Hz ltac:(repeat split; lra))).
Qed.

Section Construct.
  Variables (min max : point3) (pop : nat -> list nat -> nat) (l : list point3) (s : triangulation).
  Hypothesis Hx : x3 min < x3 max.
  Hypothesis Hy : y3 min < y3 max.
  Hypothesis Hz : z3 min < z3 max.
  Notation pts := (table3 min max l).
  Notation pts' := (remapped_table3 min max l).

  Lemma remapped3 : exists emin emax, (forall v, pts' v = remap3 emin emax (pts v)) /\ x3 emin < x3 emax /\ y3 emin < y3 emax /\ z3 emin < z3 emax /\
    x3 emax - x3 emin == (312#100) * (x3 max - x3 min) /\ y3 emax - y3 emin == (312#100) * (y3 max - y3 min) /\
    z3 emax - z3 emin == (312#100) * (z3 max - z3 min).
  Proof.
    destruct (outer_extent3 min max Hx Hy Hz) as [emin [emax [E [E1 [E2 E3]]]]]. exists emin, emax. split.
    - intro v. unfold remapped_table3. rewrite E. reflexivity.
    - repeat split; lra.
  Qed.
  Lemma remapped3_pos a b c d : 0 < orient3 (pts' a) (pts' b) (pts' c) (pts' d) <-> 0 < orient3 (pts a) (pts b) (pts c) (pts d).
  Proof.
    destruct remapped3 as [emin [emax [E [A [B [C _]]]]]]. rewrite !E.
    exact (stretch3_pos (remap3 emin emax) _ (remap3_pos emin emax A B C) (remap3_orient emin emax A B C) _ _ _ _).
  Qed.
  Lemma construct3_built : construct3 min max pop l = Some s -> built3 (crossing3 pts') (circle3 pts') (inside3 pts') pop (length l) s.
  Proof.
    unfold construct3. destruct all_encompassing_3d as [s0|] eqn:E; cbn [bind]; [|discriminate]. intro H. exists s0. auto.
  Qed.
  Hypothesis H : construct3 min max pop l = Some s.
  Lemma construct3_good : good3 pts' s.
  Proof.
    apply (built3_good pts' pop (length l)); [|now apply construct3_built].
    apply remapped3_pos. now apply outer_pos3.
  Qed.
  Theorem construct3_points : num_points s = (length l + 4)%nat.
  Proof.
    destruct (built3_inv (crossing3 pts') (circle3 pts') (inside3 pts') pop (DelaunayGeo_Proofs.circle3_corners pts') (length l) s) as [_ [_ [_ X]]];
      [now apply construct3_built|]. rewrite X. apply Nat.add_comm.
  Qed.
  Theorem construct3_remapped : delaunay3 pts' s.
  Proof. apply good_delaunay3; [exact construct3_good|]. apply remapped3_pos. now apply outer_pos3. Qed.
  Theorem construct3_tiles : tiles3 pts s.
  Proof.
    destruct remapped3 as [emin [emax [E [A [B [C _]]]]]].
    apply (stretch3_tiles (remap3 emin emax) _ (remap3_pos emin emax A B C) (remap3_orient emin emax A B C) (remap3_mean emin emax A B C) pts pts' E).
    exact (proj1 construct3_remapped).
  Qed.
  Theorem construct3_cube : x3 max - x3 min == y3 max - y3 min -> x3 max - x3 min == z3 max - z3 min -> delaunay3 pts s.
  Proof.
    intros C1 C2. destruct remapped3 as [emin [emax [E [A [B [C [E1 [E2 E3]]]]]]]].
    apply (stretch3_delaunay (remap3 emin emax) (unmap3 emin emax) _ (remap3_pos emin emax A B C) (remap3_orient emin emax A B C)
      (remap3_mean emin emax A B C) (remap3_inverse emin emax A B C) pts pts' E (/ ((x3 emax - x3 emin) * (x3 emax - x3 emin)))).
    - apply Qinv_lt_0_compat. apply qmul_pos; lra.
    - intros. apply remap3_dist; auto; lra.
    - exact construct3_remapped.
  Qed.
End Construct.

(** ** The order of the insertions does not matter *)
Lemma table3_perm min max l l' : Permutation l l' -> forall v, (v < length l + 4)%nat ->
  exists v', (v' < length l' + 4)%nat /\ table3 min max l v = table3 min max l' v'.
Proof.
  intros P v Hv. unfold table3. destruct v as [|[|[|[|v]]]]; [exists 0%nat|exists 1%nat|exists 2%nat|exists 3%nat|]; try (split; [lia|reflexivity]).
  cbn [nth]. destruct (In_nth l' (nth v l (P3 0 0 0)) (P3 0 0 0)) as [v' [L E]].
  - apply (Permutation_in _ P). apply nth_In. lia.
  - exists (S (S (S (S v')))). split; [lia|]. cbn [nth]. now rewrite E.
Qed.
Theorem construct3_order min max pop pop' l l' s s' : x3 min < x3 max -> y3 min < y3 max -> z3 min < z3 max -> Permutation l l' ->
  construct3 min max pop l = Some s -> construct3 min max pop' l' = Some s' ->
  forall a b c d, is_tetra s a b c d -> exists a' b' c' d', is_tetra s' a' b' c' d' /\
    table3 min max l a = table3 min max l' a' /\ table3 min max l b = table3 min max l' b' /\
    table3 min max l c = table3 min max l' c' /\ table3 min max l d = table3 min max l' d'.
Proof.
  intros Hx Hy Hz P H H'.
  apply (order_independent3 (remapped_table3 min max l) (remapped_table3 min max l') s s'
    (construct3_good min max pop l s Hx Hy Hz H) (construct3_good min max pop' l' s' Hx Hy Hz H')
    (fun v v' => table3 min max l v = table3 min max l' v')).
  - intros v v' E. unfold remapped_table3. destruct (tetra_extent3 _). rewrite E. reflexivity.
  - intros v Hv. rewrite (construct3_points min max pop l s H) in Hv. rewrite (construct3_points min max pop' l' s' H').
    now apply table3_perm.
  - intros v' Hv. rewrite (construct3_points min max pop' l' s' H') in Hv. rewrite (construct3_points min max pop l s H).
    destruct (table3_perm min max l' l (Permutation_sym P) v' Hv) as [v [A B]]. eauto.
Qed.

(** Points of the box are inside of the initial tetrahedron. *)
Lemma table3_inside min max l v : x3 min < x3 max -> y3 min < y3 max -> z3 min < z3 max -> Forall (in_box3 min max) l ->
  (4 <= v < length l + 4)%nat -> strictly_inside3 (shape3 (table3 min max l) 0 1 2 3) (table3 min max l v).
Proof.
  intros Hx Hy Hz F Hv. destruct v as [|[|[|[|v]]]]; try lia.
  rewrite Forall_forall in F. assert (K : in_box3 min max (nth v l (P3 0 0 0))) by (apply F, nth_In; lia).
  exact (proj2 (all_encompassing3_ok min max _ Hx Hy Hz K)).
Qed.

(** The images of the points of a box under one shift are in the larger extent. *)
Lemma image_between3 lo hi p i : lo <= p <= hi -> -1 <= i <= 1 ->
  lo - (hi - lo) <= p + i * (hi - lo) <= hi + (hi - lo).
Proof. intros [A B] [C D]. split; nra. Qed.
Lemma images_inside3 min max p i j k : in_box3 min max p -> -1 <= i <= 1 -> -1 <= j <= 1 -> -1 <= k <= 1 ->
  let (pmin, pmax) := including_periodic_images3 min max in
  in_box3 pmin pmax (P3 (x3 p + i * (x3 max - x3 min)) (y3 p + j * (y3 max - y3 min)) (z3 p + k * (z3 max - z3 min))).
Proof. intros (A & B & C) I J K. cbn. split; [|split]; apply image_between3; assumption. Qed.
