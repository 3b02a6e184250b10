(** The triangulation in the coordinates of the points themselves. *)
From Coq Require Import List Arith Lia QArith Qminmax Lqa Setoid Bool Permutation.
From Verif Require Import Geometry_Model Geometry_Spec Geometry_Proofs GeometryContains_Proofs Circle2_Proofs Tiling2_Proofs Delaunay_Model Delaunay_Spec
  DelaunayGlobal_Spec DelaunayGeo_Model DelaunayFinal_Proofs DelaunayGlobal2_Proofs DelaunayUnique2_Proofs DelaunayRemap_Model.
Import ListNotations.
Local Open Scope Q_scope.

(** ** Maps that stretch the coordinates *)
Section Stretch.
  Variables f g : point2 -> point2.
  Variable k : Q.
  Hypothesis k_pos : 0 < k.
  Hypothesis f_orient : forall a b c, orient (f a) (f b) (f c) == k * orient a b c.
  Hypothesis f_g : forall x, same_point (f (g x)) x.
  Variables pts pts' : nat -> point2.
  Hypothesis image : forall v, pts' v = f (pts v).

  Lemma stretch_pos a b c : 0 < orient (f a) (f b) (f c) <-> 0 < orient a b c.
  Proof. rewrite f_orient. split; intro H; [exact (qmul_pos_inv _ _ k_pos H)|exact (qmul_pos _ _ k_pos H)]. Qed.
  Lemma stretch_nonneg a b c : 0 <= orient (f a) (f b) (f c) <-> 0 <= orient a b c.
  Proof. rewrite f_orient. split; intro H; [exact (qmul_nonneg_inv _ _ k_pos H)|apply qmul_nonneg; lra]. Qed.
  Lemma stretch_ins a b c x : ins (f a) (f b) (f c) (f x) <-> ins a b c x.
  Proof. unfold ins. rewrite !stretch_pos. reflexivity. Qed.
  Lemma stretch_cls a b c x : cls (f a) (f b) (f c) (f x) <-> cls a b c x.
  Proof. unfold cls. rewrite !stretch_nonneg. reflexivity. Qed.

  Lemma stretch_tiles s : 0 < orient (pts 0%nat) (pts 1%nat) (pts 2%nat) -> tiles2 pts' s -> tiles2 pts s.
  Proof.
    intros P0 [A B C D].
    assert (PO : forall a b c, is_triangle s a b c -> 0 < orient (pts a) (pts b) (pts c)).
    { intros a b c H. apply stretch_pos. rewrite <- !image. exact (B a b c H). }
    assert (TR : forall i t a b c, In (i, t) (tetras s) -> points_of t = [a; b; c] -> is_triangle s a b c).
    { intros i t a b c Ht E. exists i, t. split; [exact Ht|]. now left. }
    constructor.
    - exact A.
    - exact PO.
    - intros i t j u a b c d e h x Ht Hu Et Eu HI HC.
      pose proof (TR _ _ _ _ _ Ht Et) as T1. pose proof (TR _ _ _ _ _ Hu Eu) as T2.
      apply (C i t j u a b c d e h (f x) Ht Hu Et Eu).
      + apply (strictly_inside2_ins _ _ _ _ (PO _ _ _ T1)) in HI. unfold shape2. rewrite !image.
        apply strictly_inside2_ins; [|now apply stretch_ins]. apply stretch_pos. exact (PO _ _ _ T1).
      + apply (covers2_cls _ _ _ _ (PO _ _ _ T2)) in HC. unfold shape2. rewrite !image.
        apply covers2_cls; [|now apply stretch_cls]. apply stretch_pos. exact (PO _ _ _ T2).
    - intros x Hx. apply (covers2_cls _ _ _ _ P0) in Hx.
      destruct (D (f x)) as [a [b [c [T1 H]]]].
      + unfold shape2. rewrite !image. apply covers2_cls; [now apply stretch_pos|now apply stretch_cls].
      + exists a, b, c. split; [exact T1|]. apply (covers2_cls _ _ _ _ (PO _ _ _ T1)).
        unfold shape2 in H. rewrite !image in H. apply covers2_cls in H; [now apply stretch_cls|].
        apply stretch_pos. exact (PO _ _ _ T1).
  Qed.

  Variable r : Q.
  Hypothesis r_pos : 0 < r.
  Hypothesis f_dist : forall a b, dist2_2 (f a) (f b) == r * dist2_2 a b.
  Lemma stretch_empty n a b c : empty_circumcircle2 pts' n a b c -> empty_circumcircle2 pts n a b c.
  Proof.
    intros [o [[C1 C2] H]]. cbn [shape2 t2p1 t2p2 t2p3] in C1, C2.
    assert (DI : forall v, dist2_2 o (pts' v) == r * dist2_2 (g o) (pts v)).
    { intro v. rewrite image, <- f_dist. destruct (f_g o) as [E1 E2]. unfold dist2_2. rewrite E1, E2. reflexivity. }
    assert (INJ : forall x y, r * x == r * y -> x == y) by (intros x y E; apply (Qmult_inj_l _ _ r); [lra|exact E]).
    rewrite !DI in C1, C2. exists (g o). split.
    - split; cbn [shape2 t2p1 t2p2 t2p3]; apply INJ; assumption.
    - intros v Hv N1 N2 N3. specialize (H v Hv N1 N2 N3). rewrite !DI in H.
      apply (Qmult_lt_l _ _ r r_pos). exact H.
  Qed.
  Lemma stretch_delaunay s : 0 < orient (pts 0%nat) (pts 1%nat) (pts 2%nat) -> delaunay2 pts' s -> delaunay2 pts s.
  Proof.
    intros P0 [A B]. split; [exact (stretch_tiles s P0 A)|]. intros a b c H. apply stretch_empty. exact (B a b c H).
  Qed.

  Lemma stretch_general n : 0 < orient (pts 0%nat) (pts 1%nat) (pts 2%nat) -> general_position pts n -> general_position pts' n.
  Proof.
    intros P0 [A B C]. constructor.
    - intros v Hv. specialize (A v Hv). apply (strictly_inside2_ins _ _ _ _ P0) in A.
      unfold shape2. rewrite !image. apply strictly_inside2_ins; [now apply stretch_pos|now apply stretch_ins].
    - intros a b c Ha Hb Hc N1 N2 N3 Z. apply (B a b c Ha Hb Hc N1 N2 N3).
      unfold shape2 in *. rewrite !image in Z. fold (orient (f (pts a)) (f (pts b)) (f (pts c))) in Z. rewrite f_orient in Z.
      apply Qmult_integral in Z. destruct Z as [Z|Z]; [lra|exact Z].
    - intros a b c d o Ha Hb Hc Hd N1 N2 N3 N4 N5 N6 [C1 C2] Z. cbn [shape2 t2p1 t2p2 t2p3] in C1, C2.
      assert (DI : forall v, dist2_2 o (pts' v) == r * dist2_2 (g o) (pts v)).
      { intro v. rewrite image, <- f_dist. destruct (f_g o) as [E1 E2]. unfold dist2_2. rewrite E1, E2. reflexivity. }
      assert (INJ : forall x y, r * x == r * y -> x == y) by (intros x y E; apply (Qmult_inj_l _ _ r); [lra|exact E]).
      rewrite !DI in C1, C2, Z. apply (C a b c d (g o) Ha Hb Hc Hd N1 N2 N3 N4 N5 N6); [|now apply INJ].
      split; cbn [shape2 t2p1 t2p2 t2p3]; now apply INJ.
  Qed.
End Stretch.

(** ** The remapping *)
Definition unmap2 (min max p : point2) : point2 :=
  P2 (x2 min + (x2 p - 1) * (x2 max - x2 min)) (y2 min + (y2 p - 1) * (y2 max - y2 min)).
Lemma remap_orient min max a b c : x2 min < x2 max -> y2 min < y2 max ->
  orient (remap2 min max a) (remap2 min max b) (remap2 min max c) == / ((x2 max - x2 min) * (y2 max - y2 min)) * orient a b c.
Proof. intros Hx Hy. unfold orient, area2, remap2. cbn. field. split; lra. Qed.
Lemma remap_inverse min max x : x2 min < x2 max -> y2 min < y2 max -> same_point (remap2 min max (unmap2 min max x)) x.
Proof. intros Hx Hy. split; cbn; field; lra. Qed.
Lemma remap_dist min max a b : x2 min < x2 max -> x2 max - x2 min == y2 max - y2 min ->
  dist2_2 (remap2 min max a) (remap2 min max b) == / ((x2 max - x2 min) * (x2 max - x2 min)) * dist2_2 a b.
Proof. intros Hx E. unfold dist2_2, remap2. cbn. rewrite <- E. field. lra. Qed.

(** The extent of the initial triangle is four times as large as that of the points. *)
Lemma outer_extent min max : x2 min < x2 max -> y2 min < y2 max -> exists emin emax,
  triangle_extent2 (all_encompassing2 min max) = (emin, emax) /\
  x2 emax - x2 emin == 4 * (x2 max - x2 min) /\ y2 emax - y2 emin == 4 * (y2 max - y2 min).
Proof.
  intros Hx Hy. unfold triangle_extent2. do 2 eexists. split; [reflexivity|].
  unfold all_encompassing2. cbn.
  set (mx := x2 min) in *. set (Mx := x2 max) in *. set (my := y2 min) in *. set (My := y2 max) in *.
  assert (L : forall a b, a <= b -> Qmin a b == a) by (intros; now apply Q.min_l).
  assert (R : forall a b, b <= a -> Qmin a b == b) by (intros; now apply Q.min_r).
  assert (L' : forall a b, b <= a -> Qmax a b == a) by (intros; now apply Q.max_l).
  assert (R' : forall a b, a <= b -> Qmax a b == b) by (intros; now apply Q.max_r).
  rewrite (R mx (mx - (Mx - mx) * 1)) by lra. rewrite (L (mx - (Mx - mx) * 1)) by lra.
  rewrite (L' mx (mx - (Mx - mx) * 1)) by lra. rewrite (R' mx) by lra.
  rewrite (R (My + (My - my) * (1 + 1)) (my - (My - my) * 1)) by lra. rewrite (L (my - (My - my) * 1)) by lra.
  rewrite (L' (My + (My - my) * (1 + 1)) (my - (My - my) * 1)) by lra. rewrite (L' (My + (My - my) * (1 + 1))) by lra.
  split; ring.
Qed.
Lemma outer_pos min max l : x2 min < x2 max -> y2 min < y2 max ->
  0 < orient (table2 min max l 0%nat) (table2 min max l 1%nat) (table2 min max l 2%nat).
Proof.
  intros Hx Hy. pose proof (qmul_pos (x2 max - x2 min) (y2 max - y2 min) ltac:(lra) ltac:(lra)) as K.
  assert (E : orient (table2 min max l 0%nat) (table2 min max l 1%nat) (table2 min max l 2%nat) == 15 * ((x2 max - x2 min) * (y2 max - y2 min)))
    by (unfold orient, area2, table2; cbn; ring).
  rewrite E. lra.
Qed.

Section Construct.
  Variables (min max : point2) (pop : nat -> list nat -> nat) (l : list point2) (s : triangulation).
  Hypothesis Hx : x2 min < x2 max.
  Hypothesis Hy : y2 min < y2 max.
  Notation pts := (table2 min max l).
  Notation pts' := (remapped_table2 min max l).

  Lemma remapped : exists emin emax, (forall v, pts' v = remap2 emin emax (pts v)) /\ x2 emin < x2 emax /\ y2 emin < y2 emax /\
    x2 emax - x2 emin == 4 * (x2 max - x2 min) /\ y2 emax - y2 emin == 4 * (y2 max - y2 min).
  Proof.
    destruct (outer_extent min max Hx Hy) as [emin [emax [E [E1 E2]]]]. exists emin, emax. split.
    - intro v. unfold remapped_table2. rewrite E. reflexivity.
    - repeat split; lra.
  Qed.
  Lemma remapped_pos a b c : 0 < orient (pts' a) (pts' b) (pts' c) <-> 0 < orient (pts a) (pts b) (pts c).
  Proof.
    destruct remapped as [emin [emax [E [A [B _]]]]]. rewrite !E.
    apply (stretch_pos (remap2 emin emax) (/ ((x2 emax - x2 emin) * (y2 emax - y2 emin)))).
    - apply Qinv_lt_0_compat. apply qmul_pos; lra.
    - intros. now apply remap_orient.
  Qed.
  Lemma construct2_built : construct2 min max pop l = Some s -> built2 (circle2 pts') (inside2 pts') pop (length l) s.
  Proof.
    unfold construct2. destruct all_encompassing_2d as [s0|] eqn:E; cbn [bind]; [|discriminate]. intro H. exists s0. auto.
  Qed.
  Hypothesis H : construct2 min max pop l = Some s.
  Lemma construct2_good : good pts' s.
  Proof.
    apply (built2_good pts' pop (length l)); [|now apply construct2_built].
    apply remapped_pos. now apply outer_pos.
  Qed.
  Theorem construct2_points : num_points s = (length l + 3)%nat.
  Proof.
    destruct (built2_counts (circle2 pts') (inside2 pts') pop (DelaunayGeo_Proofs.circle2_corners pts') (length l) s) as [X _]; [now apply construct2_built|exact X].
  Qed.
  Theorem construct2_remapped : delaunay2 pts' s.
  Proof.
    apply good_delaunay; [exact construct2_good|]. apply remapped_pos. now apply outer_pos.
  Qed.
  Theorem construct2_tiles : tiles2 pts s.
  Proof.
    destruct remapped as [emin [emax [E [A [B _]]]]].
    apply (stretch_tiles (remap2 emin emax) (/ ((x2 emax - x2 emin) * (y2 emax - y2 emin)))) with (pts' := pts').
    - apply Qinv_lt_0_compat. apply qmul_pos; lra.
    - intros. now apply remap_orient.
    - exact E.
    - now apply outer_pos.
    - exact (proj1 construct2_remapped).
  Qed.
  Theorem construct2_square : x2 max - x2 min == y2 max - y2 min -> delaunay2 pts s.
  Proof.
    intro SQ. destruct remapped as [emin [emax [E [A [B [E1 E2]]]]]].
    apply (stretch_delaunay (remap2 emin emax) (unmap2 emin emax) (/ ((x2 emax - x2 emin) * (y2 emax - y2 emin)))) with
      (pts' := pts') (r := / ((x2 emax - x2 emin) * (x2 emax - x2 emin))).
    - apply Qinv_lt_0_compat. apply qmul_pos; lra.
    - intros. now apply remap_orient.
    - intros. now apply remap_inverse.
    - exact E.
    - apply Qinv_lt_0_compat. apply qmul_pos; lra.
    - intros. apply remap_dist; [exact A|lra].
    - now apply outer_pos.
    - exact construct2_remapped.
  Qed.
End Construct.

(** ** The order of the insertions does not matter *)
Lemma table2_perm min max l l' : Permutation l l' -> forall v, (v < length l + 3)%nat ->
  exists v', (v' < length l' + 3)%nat /\ table2 min max l v = table2 min max l' v'.
Proof.
  intros P v Hv. unfold table2. destruct v as [|[|[|v]]]; [exists 0%nat|exists 1%nat|exists 2%nat|]; try (split; [lia|reflexivity]).
  cbn [nth]. destruct (In_nth l' (nth v l (P2 0 0)) (P2 0 0)) as [v' [L E]].
  - apply (Permutation_in _ P). apply nth_In. lia.
  - exists (S (S (S v'))). split; [lia|]. cbn [nth]. now rewrite E.
Qed.
Theorem construct2_order min max pop pop' l l' s s' : x2 min < x2 max -> y2 min < y2 max -> Permutation l l' ->
  construct2 min max pop l = Some s -> construct2 min max pop' l' = Some s' ->
  forall a b c, is_triangle s a b c -> exists a' b' c', is_triangle s' a' b' c' /\
    table2 min max l a = table2 min max l' a' /\ table2 min max l b = table2 min max l' b' /\ table2 min max l c = table2 min max l' c'.
Proof.
  intros Hx Hy P H H'.
  apply (order_independent (remapped_table2 min max l) (remapped_table2 min max l') s s'
    (construct2_good min max pop l s Hx Hy H) (construct2_good min max pop' l' s' Hx Hy H')
    (fun v v' => table2 min max l v = table2 min max l' v')).
  - intros v v' E. unfold remapped_table2. destruct (triangle_extent2 _). rewrite E. reflexivity.
  - intros v Hv. rewrite (construct2_points min max pop l s H) in Hv. rewrite (construct2_points min max pop' l' s' H').
    now apply table2_perm.
  - intros v' Hv. rewrite (construct2_points min max pop' l' s' H') in Hv. rewrite (construct2_points min max pop l s H).
    destruct (table2_perm min max l' l (Permutation_sym P) v' Hv) as [v [A B]]. eauto.
Qed.

(** ** No panic *)
Theorem construct2_total min max pop l : x2 min < x2 max -> y2 min < y2 max ->
  general_position (remapped_table2 min max l) (length l + 3) -> exists s, construct2 min max pop l = Some s.
Proof.
  intros Hx Hy GP. destruct (built2_exists (remapped_table2 min max l) pop (length l)) as [s [s0 [E0 E]]]; auto.
  - apply remapped_pos; auto. now apply outer_pos.
  - exists s. unfold construct2. rewrite E0. exact E.
Qed.
Theorem construct2_total_square min max pop l : x2 min < x2 max -> x2 max - x2 min == y2 max - y2 min ->
  general_position (table2 min max l) (length l + 3) -> exists s, construct2 min max pop l = Some s.
Proof.
  intros Hx SQ GP. assert (Hy : y2 min < y2 max) by lra. apply construct2_total; auto.
  destruct (remapped min max l Hx Hy) as [emin [emax [E [A [B [E1 E2]]]]]].
  apply (stretch_general (remap2 emin emax) (unmap2 emin emax) (/ ((x2 emax - x2 emin) * (y2 emax - y2 emin)))) with
    (pts := table2 min max l) (r := / ((x2 emax - x2 emin) * (x2 emax - x2 emin))); auto.
  - apply Qinv_lt_0_compat. apply qmul_pos; lra.
  - intros. now apply remap_orient.
  - intros. now apply remap_inverse.
  - apply Qinv_lt_0_compat. apply qmul_pos; lra.
  - intros. apply remap_dist; [exact A|lra].
  - now apply outer_pos.
Qed.
(** Points of the box are inside of the initial triangle. *)
Lemma table2_inside min max l v : x2 min < x2 max -> y2 min < y2 max -> Forall (in_box2 min max) l ->
  (3 <= v < length l + 3)%nat -> strictly_inside2 (shape2 (table2 min max l) 0 1 2) (table2 min max l v).
Proof.
  intros Hx Hy F Hv. destruct v as [|[|[|v]]]; try lia. unfold shape2, table2. cbn [nth].
  rewrite Forall_forall in F. assert (K : in_box2 min max (nth v l (P2 0 0))) by (apply F, nth_In; lia).
  destruct (all_encompassing2_ok min max _ Hx Hy K) as [_ X]. exact X.
Qed.

(** A test for general position. *)
Definition distinct3 (a b c : nat) : bool := negb (a =? b)%nat && negb (a =? c)%nat && negb (b =? c)%nat.
Definition check_general (pts : nat -> point2) (n : nat) : bool :=
  forallb (fun v => (v <? 3)%nat || match contains2 (shape2 pts 0 1 2) (pts v) with Some b => b | None => false end) (seq 0 n) &&
  forallb (fun a => forallb (fun b => forallb (fun c => negb (distinct3 a b c) ||
    (negb (Qeq_bool (area2 (shape2 pts a b c)) 0) &&
     (Qle_bool (area2 (shape2 pts a b c)) 0 ||
      forallb (fun d => (d =? a)%nat || (d =? b)%nat || (d =? c)%nat ||
        match circumcircle_contains2 (shape2 pts a b c) (pts d) with Some _ => true | None => false end) (seq 0 n))))
    (seq 0 n)) (seq 0 n)) (seq 0 n).
Lemma check_general_ok pts n : 0 < orient (pts 0%nat) (pts 1%nat) (pts 2%nat) -> check_general pts n = true -> general_position pts n.
Proof.
  intros P0 H. unfold check_general in H. apply andb_true_iff in H. destruct H as [H1 H2].
  rewrite forallb_forall in H1. rewrite forallb_forall in H2.
  assert (SQ : forall v, (v < n)%nat -> In v (seq 0 n)) by (intros v Hv; apply in_seq; lia).
  assert (K : forall a b c, (a < n)%nat -> (b < n)%nat -> (c < n)%nat -> a <> b -> a <> c -> b <> c ->
    ~ area2 (shape2 pts a b c) == 0 /\ (0 < area2 (shape2 pts a b c) -> forall d, (d < n)%nat -> d <> a -> d <> b -> d <> c ->
      circumcircle_contains2 (shape2 pts a b c) (pts d) <> None)).
  { intros a b c Ha Hb Hc N1 N2 N3. specialize (H2 a (SQ a Ha)). cbv beta in H2. rewrite forallb_forall in H2.
    specialize (H2 b (SQ b Hb)). cbv beta in H2. rewrite forallb_forall in H2. specialize (H2 c (SQ c Hc)). cbv beta in H2.
    unfold distinct3 in H2. apply Nat.eqb_neq in N1. apply Nat.eqb_neq in N2. apply Nat.eqb_neq in N3. rewrite N1, N2, N3 in H2. cbn [negb andb orb] in H2.
    apply andb_true_iff in H2. destruct H2 as [H2 H3]. split.
    - intro Z. apply Qeq_bool_iff in Z. rewrite Z in H2. discriminate.
    - intros P d Hd M1 M2 M3. apply orb_true_iff in H3. destruct H3 as [H3|H3]; [apply Qle_bool_iff in H3; lra|].
      rewrite forallb_forall in H3. specialize (H3 d (SQ d Hd)). cbv beta in H3.
      apply Nat.eqb_neq in M1. apply Nat.eqb_neq in M2. apply Nat.eqb_neq in M3. rewrite M1, M2, M3 in H3. cbn [orb] in H3.
      destruct (circumcircle_contains2 (shape2 pts a b c) (pts d)); congruence. }
  constructor.
  - intros v Hv. specialize (H1 v (SQ v ltac:(lia))). cbv beta in H1. apply orb_true_iff in H1. destruct H1 as [H1|H1]; [apply Nat.ltb_lt in H1; lia|].
    apply contains2_ok; [unfold shape2, orient in *; lra|]. destruct (contains2 (shape2 pts 0 1 2) (pts v)) as [[|]|]; congruence.
  - intros a b c Ha Hb Hc N1 N2 N3. apply (K a b c); auto.
  - intros a b c d o Ha Hb Hc Hd N1 N2 N3 M1 M2 M3 C Z.
    destruct (K a b c Ha Hb Hc N1 N2 N3) as [K1 K2].
    destruct (Qlt_le_dec 0 (area2 (shape2 pts a b c))) as [P|P].
    + apply (K2 P d Hd M1 M2 M3). apply (circumcircle2 _ o (pts d) P C). cbn [shape2 t2p1]. exact Z.
    + assert (Sw : 0 < area2 (shape2 pts b a c)).
      { pose proof (orient_swap (pts a) (pts b) (pts c)) as E. unfold orient in E. unfold shape2 in *. lra. }
      destruct (K b a c Hb Ha Hc (not_eq_sym N1) N3 N2) as [_ K3]. apply (K3 Sw d Hd M2 M1 M3).
      destruct C as [C1 C2]. cbn [shape2 t2p1 t2p2 t2p3] in C1, C2.
      apply (circumcircle2 _ o (pts d) Sw).
      * split; cbn [shape2 t2p1 t2p2 t2p3]; lra.
      * cbn [shape2 t2p1]. lra.
Qed.

(** The images of the points of a box under one shift are in the larger extent. *)
Lemma image_between2 lo hi p i : lo <= p <= hi -> -1 <= i <= 1 ->
  lo - (hi - lo) <= p + i * (hi - lo) <= hi + (hi - lo).
Proof. intros [A B] [C D]. split; nra. Qed.
Lemma images_inside2 min max p i j : in_box2 min max p -> -1 <= i <= 1 -> -1 <= j <= 1 ->
  let (pmin, pmax) := including_periodic_images2 min max in
  in_box2 pmin pmax (P2 (x2 p + i * (x2 max - x2 min)) (y2 p + j * (y2 max - y2 min))).
Proof. intros (A & B) I J. cbn. split; apply image_between2; assumption. Qed.
